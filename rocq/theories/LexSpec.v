(** Specification vocabulary for the lexer properties C01-C05, written from the English statements; it uses
    the record types of the model (cursor, token, diagnostic) but none of its functions, except the entry
    points whose behaviour is specified. *)
From Verif Require Import Base Diag LexModel.

Definition lf : ascii := "010".

(** [c] is the place just after the prefix [pre] of a document: its offset is the number of bytes, its line
    the number of line feeds, its column the number of bytes after the last line feed. *)
Definition cursor_after (pre : bytes) (c : cursor) : Prop :=
  off c = List.length pre /\
  line c = count_occ ascii_dec pre lf /\
  exists above last,
    pre = above ++ last /\ ~ In lf last /\ col c = List.length last /\
    (above = [] \/ exists a, above = a ++ [lf]).

(** [c] is a correct cursor of the document [src]. *)
Definition cursor_in (src : bytes) (c : cursor) : Prop :=
  exists pre post, src = pre ++ post /\ cursor_after pre c.

Definition slice (src : bytes) (i j : nat) : bytes := firstn (j - i) (skipn i src).

(** All cursors a diagnostic mentions: its range, its notes, its fixes. *)
Definition range_cursors (r : range) : list cursor := [lcur r; rcur r].
Definition diag_cursors (d : diag) : list cursor :=
  range_cursors (d_range d)
  ++ flat_map (fun n => range_cursors (n_range n)) (d_notes d)
  ++ flat_map (fun f => flat_map (fun e => range_cursors (e_range e)) (f_edits f)) (d_fixes d).

(** All ranges a diagnostic mentions, and the number of placeholders of a message. *)
Definition diag_ranges (d : diag) : list range :=
  d_range d :: map n_range (d_notes d) ++ flat_map (fun f => map e_range (f_edits f)) (d_fixes d).
Fixpoint holes (msg : bytes) : nat :=
  match msg with
  | [] => 0
  | c :: msg' =>
      match msg' with
      | c2 :: msg'' =>
          if Ascii.eqb c "{" && Ascii.eqb c2 "}" then S (holes msg'') else holes msg'
      | [] => 0
      end
  end.
(** The diagnostic and its notes have one argument per placeholder. *)
Definition instantiated (d : diag) : Prop :=
  holes (dmessage (d_kind d)) = List.length (d_args d) /\
  Forall (fun n => holes (nmessage (n_kind n)) = List.length (n_args n)) (d_notes d).

(** The token's text is the slice of the document between its (correct) start and end. *)
Definition token_faithful (src : bytes) (t : token) : Prop :=
  cursor_in src (lcur (trange t)) /\ cursor_in src (rcur (trange t)) /\
  off (lcur (trange t)) <= off (rcur (trange t)) /\
  tview t = slice src (off (lcur (trange t))) (off (rcur (trange t))).

(** What a client of the lexer may do: ask for a token in any mode, or move the cursor to any place of the
    document.  [session src s ts]: after some such history the lexer is in state [s] and has returned the
    tokens [ts] (oldest first). *)
Inductive session (src : bytes) : lst -> list token -> Prop :=
| session_start : session src (lex_init src) []
| session_lex m s ts t s' :
    session src s ts -> lex_mode m s = Ok (t, s') -> session src s' (ts ++ [t])
| session_move c s ts s' :
    session src s ts -> cursor_in src c -> setCur src c s = Ok s' -> session src s' ts.

(** White space and comments. [trivia w after]: [w], when followed by [after], is a sequence of blanks, block
    comments and line comments; only a comment that reaches the end of the document may be unterminated. *)
Definition blank (c : ascii) : Prop :=
  In c [" "%char; "009"%char; "010"%char; "011"%char; "012"%char; "013"%char].
Definition occurs (p s : bytes) : Prop := exists x y, s = x ++ p ++ y.
Inductive trivia : bytes -> bytes -> Prop :=
| trivia_nil after : trivia [] after
| trivia_blank c w after : blank c -> trivia w after -> trivia (c :: w) after
| trivia_block body w after :
    ~ occurs (b "*/") (body ++ b "*") -> trivia w after -> trivia (b "/*" ++ body ++ b "*/" ++ w) after
| trivia_block_open body : ~ occurs (b "*/") body -> trivia (b "/*" ++ body) []
| trivia_line body w after :
    ~ In lf body -> trivia w after -> trivia (b "#" ++ body ++ [lf] ++ w) after
| trivia_line_end body : ~ In lf body -> trivia (b "#" ++ body) [].

(** [tiled o text ts]: the text starting at offset [o] is trivia, token, trivia, token, ..., trivia, end of
    file; no byte is missing, repeated or reordered. *)
Inductive tiled : nat -> bytes -> list token -> Prop :=
| tiled_end o w t :
    trivia w [] -> tk t = tok_eof -> tview t = [] ->
    off (lcur (trange t)) = o + List.length w -> off (rcur (trange t)) = o + List.length w ->
    tiled o w [t]
| tiled_token o w v more t ts :
    trivia w (v ++ more) -> v <> [] -> tk t <> tok_eof -> tview t = v ->
    off (lcur (trange t)) = o + List.length w ->
    off (rcur (trange t)) = o + List.length w + List.length v ->
    tiled (o + List.length w + List.length v) more ts ->
    tiled o (w ++ v ++ more) (t :: ts).

(** Spelling. *)
Definition lower := b "abcdefghijklmnopqrstuvwxyz".
Definition upper := b "ABCDEFGHIJKLMNOPQRSTUVWXYZ".
Definition digits := b "0123456789".
Definition one_of (l : bytes) (c : ascii) : Prop := In c l.
Definition id_start : ascii -> Prop := one_of (lower ++ upper ++ b "_").
Definition id_char : ascii -> Prop := one_of (lower ++ upper ++ digits ++ b "_'-").
Definition path_char : ascii -> Prop := one_of (lower ++ upper ++ digits ++ b "._-+").
Definition scheme_char : ascii -> Prop := one_of (lower ++ upper ++ digits ++ b "+-.").
Definition uri_char : ascii -> Prop := one_of (lower ++ upper ++ digits ++ b "%/?:@&=+$,-_.!~*'").
Definition digit : ascii -> Prop := one_of digits.

Definition keyword_spellings : list bytes :=
  [b "if"; b "then"; b "else"; b "assert"; b "with"; b "let"; b "in"; b "rec"; b "inherit"; b "or"].

(** The documented spelling of keywords, operators and punctuation (tokens.py / the Nix manual). *)
Definition documented : list (tkind * bytes) :=
  [ (tok_kw_if, b "if"); (tok_kw_then, b "then"); (tok_kw_else, b "else"); (tok_kw_assert, b "assert");
    (tok_kw_with, b "with"); (tok_kw_let, b "let"); (tok_kw_in, b "in"); (tok_kw_rec, b "rec");
    (tok_kw_inherit, b "inherit"); (tok_kw_or, b "or");
    (tok_dquote, b """"); (tok_quote2, b "''"); (tok_r_curly, b "}"); (tok_dollar_curly, b "${");
    (tok_ellipsis, b "..."); (tok_comma, b ","); (tok_dot, b "."); (tok_semi_colon, b ";"); (tok_eq, b "=");
    (tok_l_curly, b "{"); (tok_l_paren, b "("); (tok_r_paren, b ")"); (tok_l_bracket, b "[");
    (tok_r_bracket, b "]"); (tok_question, b "?"); (tok_at, b "@"); (tok_colon, b ":"); (tok_op_not, b "!");
    (tok_op_impl, b "->"); (tok_op_or, b "||"); (tok_op_and, b "&&"); (tok_op_eq, b "==");
    (tok_op_neq, b "!="); (tok_op_lt, b "<"); (tok_op_gt, b ">"); (tok_op_le, b "<="); (tok_op_ge, b ">=");
    (tok_op_update, b "//"); (tok_op_add, b "+"); (tok_op_negate, b "-"); (tok_op_mul, b "*");
    (tok_op_div, b "/"); (tok_op_concat, b "++"); (tok_op_pipe_into, b "|>"); (tok_op_pipe_from, b "<|") ].

(** [spelled m k v]: a token of kind [k] obtained in mode [m] may have the text [v]. *)
Inductive spelled : pmode -> tkind -> bytes -> Prop :=
| sp_fixed k v : In (k, v) documented -> spelled PS_Expr k v
| sp_id c w :
    id_start c -> Forall id_char w -> ~ In (c :: w) keyword_spellings -> spelled PS_Expr tok_id (c :: w)
| sp_int c w : digit c -> Forall digit w -> spelled PS_Expr tok_int (c :: w)
| sp_float c w f e :
    digit c -> Forall digit w -> Forall digit f ->
    (e = [] \/ exists x sign d, e = x :: sign ++ d /\ one_of (b "eE") x /\
                 In sign [[]; b "+"; b "-"] /\ Forall digit d) ->
    spelled PS_Expr tok_float ((c :: w) ++ b "." ++ f ++ e)
| sp_uri c w d u :
    one_of (lower ++ upper) c -> Forall scheme_char w -> uri_char d -> Forall uri_char u ->
    spelled PS_Expr tok_uri ((c :: w) ++ b ":" ++ (d :: u))
| sp_spath c w segs :
    path_char c -> Forall path_char w -> Forall (fun s => s <> [] /\ Forall path_char s) segs ->
    spelled PS_Expr tok_spath (b "<" ++ (c :: w) ++ flat_map (fun s => b "/" ++ s) segs ++ b ">")
| sp_path w : Forall path_char w -> spelled PS_Expr tok_path_fragment (w ++ b "/")
| sp_home : spelled PS_Expr tok_path_fragment (b "~/")
| sp_eof : spelled PS_Expr tok_eof []
| sp_unknown c : spelled PS_Expr tok_unknown [c]
(* inside "..." *)
| sp_str_quote : spelled PS_String tok_dquote (b """")
| sp_str_interp : spelled PS_String tok_dollar_curly (b "${")
| sp_str_escape c : spelled PS_String tok_string_escape ["\"%char; c]
| sp_str_part v :
    v <> [] -> ~ In """"%char v -> ~ In "\"%char v -> spelled PS_String tok_string_part v
| sp_str_eof : spelled PS_String tok_eof []
(* inside ''...'' *)
| sp_ind_quote : spelled PS_IndString tok_quote2 (b "''")
| sp_ind_interp : spelled PS_IndString tok_dollar_curly (b "${")
| sp_ind_dollar : spelled PS_IndString tok_string_escape (b "''$")
| sp_ind_quotes : spelled PS_IndString tok_string_escape (b "'''")
| sp_ind_any c : spelled PS_IndString tok_string_escape (b "''\" ++ [c])
| sp_ind_part v : v <> [] -> ~ occurs (b "''") v -> spelled PS_IndString tok_string_part v
| sp_ind_eof : spelled PS_IndString tok_eof []
(* inside a path *)
| sp_path_interp : spelled PS_Path tok_dollar_curly (b "${")
| sp_path_more v :
    v <> [] -> Forall (fun c => path_char c \/ c = "/"%char) v -> spelled PS_Path tok_path_fragment v
| sp_path_home v :
    Forall (fun c => path_char c \/ c = "/"%char) v -> spelled PS_Path tok_path_fragment (b "~/" ++ v)
| sp_path_end : spelled PS_Path tok_path_end [].

(** The full claim of C05. *)
Definition spelling_claim : Prop :=
  forall src s ts m t s', session src s ts -> lex_mode m s = Ok (t, s') -> spelled m (tk t) (tview t).
