(** Model of the lexer: libnixf/src/Parse/{Lexer.h,Lexer.cpp,Token.h,tokens.py}. *)
From Verif Require Import Base Diag.

(** tokens.py:17-87 / Tokens.h.py:100-129 TokenKind *)
Inductive tkind :=
| tok_kw_if | tok_kw_then | tok_kw_else | tok_kw_assert | tok_kw_with | tok_kw_let | tok_kw_in
| tok_kw_rec | tok_kw_inherit | tok_kw_or
| tok_eof | tok_id | tok_int | tok_float | tok_dquote | tok_string_part | tok_string_escape | tok_quote2
| tok_path_fragment | tok_spath | tok_uri | tok_r_curly | tok_dollar_curly | tok_ellipsis | tok_comma
| tok_dot | tok_semi_colon | tok_eq | tok_l_curly | tok_l_paren | tok_r_paren | tok_l_bracket
| tok_r_bracket | tok_question | tok_at | tok_colon | tok_unknown | tok_path_end
| tok_op_not
| tok_op_impl | tok_op_or | tok_op_and | tok_op_eq | tok_op_neq | tok_op_lt | tok_op_gt | tok_op_le
| tok_op_ge | tok_op_update | tok_op_add | tok_op_negate | tok_op_mul | tok_op_div | tok_op_concat
| tok_op_pipe_into | tok_op_pipe_from.

Scheme Equality for tkind.

(** tokens.py:17-87, Tokens.h.py:114-124 spelling() *)
Definition spelling (k : tkind) : bytes :=
  match k with
  | tok_kw_if => b "if" | tok_kw_then => b "then" | tok_kw_else => b "else"
  | tok_kw_assert => b "assert" | tok_kw_with => b "with" | tok_kw_let => b "let" | tok_kw_in => b "in"
  | tok_kw_rec => b "rec" | tok_kw_inherit => b "inherit" | tok_kw_or => b "or"
  | tok_eof => b "eof" | tok_id => b "id" | tok_int => b "int" | tok_float => b "float"
  | tok_dquote => b """" | tok_string_part => b "string_part" | tok_string_escape => b "string_escape"
  | tok_quote2 => b "''" | tok_path_fragment => b "path_fragment" | tok_spath => b "<path>"
  | tok_uri => b "uri" | tok_r_curly => b "}" | tok_dollar_curly => b "${" | tok_ellipsis => b "..."
  | tok_comma => b "," | tok_dot => b "." | tok_semi_colon => b ";" | tok_eq => b "="
  | tok_l_curly => b "{" | tok_l_paren => b "(" | tok_r_paren => b ")" | tok_l_bracket => b "["
  | tok_r_bracket => b "]" | tok_question => b "?" | tok_at => b "@" | tok_colon => b ":"
  | tok_unknown => b "unknown" | tok_path_end => b "path_end"
  | tok_op_not => b "!"
  | tok_op_impl => b "->" | tok_op_or => b "||" | tok_op_and => b "&&" | tok_op_eq => b "=="
  | tok_op_neq => b "!=" | tok_op_lt => b "<" | tok_op_gt => b ">" | tok_op_le => b "<="
  | tok_op_ge => b ">=" | tok_op_update => b "//" | tok_op_add => b "+" | tok_op_negate => b "-"
  | tok_op_mul => b "*" | tok_op_div => b "/" | tok_op_concat => b "++"
  | tok_op_pipe_into => b "|>" | tok_op_pipe_from => b "<|"
  end.

(** Token.h:14-27 *)
Record token := Tok { tk : tkind; trange : range; tview : bytes }.

(** Character classes of <cctype> in the "C" locale.  Passing a negative char (byte >= 128) is formally
    undefined; glibc answers false for all classes below, which is what is modelled. *)
Definition in_code (lo hi : N) (c : ascii) : bool := N.leb lo (code c) && N.leb (code c) hi.
Definition isdigit (c : ascii) : bool := in_code 48 57 c.
Definition isalpha (c : ascii) : bool := in_code 65 90 c || in_code 97 122 c.
Definition isalnum (c : ascii) : bool := isalpha c || isdigit c.
Definition isspace (c : ascii) : bool := in_code 9 13 c || N.eqb (code c) 32.

(** std::string_view::find(char) != npos *)
Definition mem_char (c : ascii) (s : bytes) : bool := existsb (Ascii.eqb c) s.

(** Lexer.cpp:13-16 *)
Definition isUriSchemeChar (c : ascii) : bool := isalnum c || mem_char c (b "+-.").
(** Lexer.cpp:18-24 *)
Definition isUriPathChar (c : ascii) : bool := isalnum c || mem_char c (b "%/?:@&=+$,-_.!~*'").
(** Lexer.cpp:26-30 *)
Definition isPathChar (c : ascii) : bool := isdigit c || isalpha c || mem_char c (b "._-+").
(** Lexer.cpp:32-35 *)
Definition isIdentifierChar (c : ascii) : bool := isdigit c || isalpha c || mem_char c (b "_'-").

(** Lexer state: [cur] is Lexer::Cur, [rest] is Lexer::remain() = Src.substr(Cur.Offset) (kept explicitly),
    [diags] is the shared diagnostics vector, newest first. *)
Record lst := Lst { cur : cursor; rest : bytes; diags : list diag }.

(** Lexer.h:27-38, one character of consume() *)
Definition adv (c : ascii) (p : cursor) : cursor :=
  if Ascii.eqb c "010" then mkCur (S (line p)) 0 (S (off p))
  else mkCur (line p) (S (col p)) (S (off p)).

(** Lexer.h:27-38 consume(N); the assertion Cur.Offset + N <= Src.length() fails iff fewer than N bytes
    remain. *)
Fixpoint consume (n : nat) (s : lst) : res lst :=
  match n with
  | 0 => Ok s
  | S n' =>
      match rest s with
      | [] => Crash "Lexer::consume past the end"
      | c :: r => consume n' (Lst (adv c (cur s)) r (diags s))
      end
  end.

(** Lexer.h:61-65 eof() *)
Definition eof (s : lst) : bool := match rest s with [] => true | _ => false end.

(** Lexer.h:115-119 peek() *)
Definition lpeek (s : lst) : option ascii := match rest s with [] => None | c :: _ => Some c end.
Definition lpeek_is (c : ascii) (s : lst) : bool :=
  match rest s with [] => false | c' :: _ => Ascii.eqb c' c end.

(** Lexer.cpp:99-106 peekPrefix (remain() is taken only when it is long enough) *)
Definition peekPrefix (p : bytes) (s : lst) : bool := starts_with p (rest s).

(** Lexer.cpp:42-49 consumePrefix; the boolean is has_value(), the range is (cur s, cur of the new state) *)
Definition consumePrefix (p : bytes) (s : lst) : res (bool * lst) :=
  if peekPrefix p s then let* s' := consume (List.length p) s in Ok (true, s')
  else Ok (false, s).

(** The loop  while (!eof() && P(peekUnwrap())) consume();  *)
Fixpoint cw_aux (P : ascii -> bool) (r : bytes) (p : cursor) : cursor * bytes :=
  match r with
  | [] => (p, [])
  | c :: r' => if P c then cw_aux P r' (adv c p) else (p, c :: r')
  end.
Definition consumeWhile (P : ascii -> bool) (s : lst) : lst :=
  let '(p, r) := cw_aux P (rest s) (cur s) in Lst p r (diags s).

(** Lexer.cpp:51-62 consumeManyOf, specialised by a class of characters; also 85-97 consumeManyPathChar,
    whose do/while is the same loop.  The boolean is has_value(). *)
Definition consumeMany (P : ascii -> bool) (s : lst) : bool * lst :=
  match rest s with
  | [] => (false, s)
  | c :: _ => if P c then (true, consumeWhile P s) else (false, s)
  end.
(** Lexer.h:80-82 consumeManyDigits *)
Definition consumeManyDigits (s : lst) : bool * lst := consumeMany (fun c => mem_char c (b "0123456789")) s.
Definition consumeManyPathChar (s : lst) : bool * lst := consumeMany isPathChar s.

(** Lexer.cpp:64-73 consumeOneOf *)
Definition consumeOneOf (cs : bytes) (s : lst) : res (option ascii * lst) :=
  match lpeek s with
  | None => Ok (None, s)
  | Some c => if mem_char c cs then let* s' := consume 1 s in Ok (Some c, s') else Ok (None, s)
  end.

(** Lexer.cpp:75-83 consumeOne *)
Definition consumeOne (c : ascii) (s : lst) : res (bool * lst) :=
  if lpeek_is c s then let* s' := consume 1 s in Ok (true, s') else Ok (false, s).

(** Diags.emplace_back *)
Definition push_diag (d : diag) (s : lst) : lst := Lst (cur s) (rest s) (d :: diags s).

(** Lexer.cpp:108-115 consumeWhitespaces (at end of input the do-while would consume: that is kept) *)
Definition consumeWhitespaces (s : lst) : res (bool * lst) :=
  match lpeek s with
  | Some c =>
      if isspace c then let* s' := consume 1 s in Ok (true, consumeWhile isspace s') else Ok (false, s)
  | None => let* s' := consume 1 s in Ok (true, consumeWhile isspace s')
  end.

(** Lexer.cpp:122-135, the loop over the body of a block comment; true = terminator found *)
Fixpoint bcomment_aux (r : bytes) (p : cursor) : bool * (cursor * bytes) :=
  match r with
  | [] => (false, (p, []))
  | c :: r' =>
      match r' with
      | c2 :: r'' =>
          if Ascii.eqb c "*" && Ascii.eqb c2 "/" then (true, (adv c2 (adv c p), r''))
          else bcomment_aux r' (adv c p)
      | [] => bcomment_aux r' (adv c p)
      end
  end.

(** Lexer.cpp:136-144, the loop over a line comment; consumeEOL is Lexer.h:67 *)
Fixpoint lcomment_aux (r : bytes) (p : cursor) : cursor * bytes :=
  match r with
  | [] => (p, [])
  | c :: r' =>
      if Ascii.eqb c "010" then (adv c p, r')
      else
        match r' with
        | c2 :: r'' =>
            if Ascii.eqb c "013" && Ascii.eqb c2 "010" then (adv c2 (adv c p), r'')
            else lcomment_aux r' (adv c p)
        | [] => lcomment_aux r' (adv c p)
        end
  end.

(** Lexer.cpp:117-146 consumeComments *)
Definition consumeComments (s : lst) : res (bool * lst) :=
  if eof s then Ok (false, s)
  else
    let* (blk, s1) := consumePrefix (b "/*") s in
    if blk then
      let begin_ := mkRange (cur s) (cur s1) in
      let '(closed, (p, r)) := bcomment_aux (rest s1) (cur s1) in
      if closed then Ok (true, Lst p r (diags s1))
      else
        let* e := mkInsertion p (b "*/") in
        let d := d_fix (Fix_ (b "insert */") [e])
                   (d_note (Note_ NK_BCommentBegin begin_ []) (diag0 DK_UnterminatedBComment (point p))) in
        Ok (true, Lst p r (d :: diags s1))
    else
      let* (ln, s2) := consumePrefix (b "#") s1 in
      if ln then let '(p, r) := lcomment_aux (rest s2) (cur s2) in Ok (true, Lst p r (diags s2))
      else Ok (false, s2).

(** Lexer.cpp:148-156 consumeTrivia; fuel stands for the number of loop iterations *)
Fixpoint consumeTrivia_f (fuel : nat) (s : lst) : res lst :=
  match fuel with
  | 0 => OutOfFuel
  | S fuel' =>
      if eof s then Ok s
      else
        let* (w, s1) := consumeWhitespaces s in
        if w then consumeTrivia_f fuel' s1
        else
          let* (c, s2) := consumeComments s1 in
          if c then consumeTrivia_f fuel' s2 else Ok s2
  end.
Definition consumeTrivia (s : lst) : res lst := consumeTrivia_f (S (List.length (rest s))) s.

(** Lexer.h:48-54 finishToken (startToken, 44-47, recorded the state [s0]) *)
Definition slice_between (s0 s1 : lst) : bytes := firstn (off (cur s1) - off (cur s0)) (rest s0).
Definition finishToken (k : tkind) (s0 s1 : lst) : token :=
  Tok k (mkRange (cur s0) (cur s1)) (slice_between s0 s1).

(** Lexer.cpp:158-172 lexFloatExp (its result is never used) *)
Definition lexFloatExp (s : lst) : res lst :=
  let* (e, s1) := consumeOneOf (b "Ee") s in
  match e with
  | None => Ok s1
  | Some ch =>
      let* (_, s2) := consumeOneOf (b "+-") s1 in
      let '(dig, s3) := consumeManyDigits s2 in
      if dig then Ok s3
      else Ok (push_diag (d_arg [ch] (diag0 DK_FloatNoExp (point (cur s3)))) s3)
  end.

(** Lexer.cpp:174-210 lexNumbers *)
Definition lexNumbers (s : lst) : res (tkind * lst) :=
  let '(ok, s1) := consumeManyDigits s in
  if negb ok then Crash "lexNumbers: must be called with a digit start"
  else if lpeek_is "." s1 then
    let* s2 := consume 1 s1 in
    let '(_, s3) := consumeManyDigits s2 in
    let* s4 := lexFloatExp s3 in
    let prefix := firstn 2 (rest s) in
    if starts_with (b "0") prefix && negb (bytes_eqb prefix (b "0."))
    then Ok (tok_float, push_diag (d_arg prefix (diag0 DK_FloatLeadingZero (mkRange (cur s) (cur s1)))) s4)
    else Ok (tok_float, s4)
  else Ok (tok_int, s1).

Definition peek_path_char (s : lst) : bool :=
  match lpeek s with Some c => isPathChar c | None => false end.

(** Lexer.cpp:212-256 consumePathStart *)
Definition consumePathStart (s : lst) : res (bool * lst) :=
  let* (t, s1) := consumeOne "~" s in
  if t then
    let* (sl, s2) := consumeOne "/" s1 in
    if sl && (peek_path_char s2 || peekPrefix (b "${") s2) then Ok (true, s2) else Ok (false, s)
  else
    let '(_, s2) := consumeManyPathChar s1 in
    let* (sl, s3) := consumeOne "/" s2 in
    if sl && (peek_path_char s3 || peekPrefix (b "${") s3) then Ok (true, s3) else Ok (false, s).

(** Lexer.cpp:258-285 consumeURI *)
Definition consumeURI (s : lst) : res (bool * lst) :=
  let s1 := consumeWhile isUriSchemeChar s in
  if lpeek_is ":" s1 then
    let* s2 := consume 1 s1 in
    match lpeek s2 with
    | Some c => if isUriPathChar c then Ok (true, consumeWhile isUriPathChar s2) else Ok (false, s)
    | None => Ok (false, s)
    end
  else Ok (false, s).

(** Lexer.cpp:298-311, the loop (\/{PATH_CHAR}+)* ; fuel stands for the number of iterations *)
Fixpoint spath_loop (fuel : nat) (s : lst) : res lst :=
  match fuel with
  | 0 => OutOfFuel
  | S fuel' =>
      if lpeek_is "/" s then
        let* s1 := consume 1 s in
        if peek_path_char s1 then spath_loop fuel' (consumeWhile isPathChar s1) else Ok s1
      else Ok s
  end.

(** Lexer.cpp:287-320 consumeSPath *)
Definition consumeSPath (s : lst) : res (bool * lst) :=
  let* s1 := (if lpeek_is "<" s then consume 1 s else Ok s) in
  if peek_path_char s1 then
    let s2 := consumeWhile isPathChar s1 in
    let* s3 := spath_loop (S (List.length (rest s2))) s2 in
    if lpeek_is ">" s3 then let* s4 := consume 1 s3 in Ok (true, s4) else Ok (false, s)
  else Ok (false, s).

(** Lexer.cpp:322-327 lexIdentifier *)
Definition lexIdentifier (s : lst) : res lst :=
  let* s1 := consume 1 s in Ok (consumeWhile isIdentifierChar s1).

(** tokens.py:17-28 keyword_tokens *)
Definition keywords : list tkind :=
  [tok_kw_if; tok_kw_then; tok_kw_else; tok_kw_assert; tok_kw_with; tok_kw_let; tok_kw_in; tok_kw_rec;
   tok_kw_inherit; tok_kw_or].

(** Lexer.cpp:329-340 maybeKW *)
Definition maybeKW (str : bytes) : tkind :=
  match find (fun k => bytes_eqb str (spelling k)) keywords with
  | Some k => k
  | None => tok_id
  end.

Definition isPathOrSlash (c : ascii) : bool := isPathChar c || Ascii.eqb c "/".

(** Lexer.cpp:342-382 lexPath.  The check peekPrefix("${") inside the loops (364-365, 375-376) can never
    succeed, because '$' is not a path character; it is kept by the loop condition itself. *)
Definition lexPath (s : lst) : res (token * lst) :=
  if eof s then Ok (finishToken tok_path_end s s, s)
  else
    let* (dc, s1) := consumePrefix (b "${") s in
    if dc then Ok (finishToken tok_dollar_curly s s1, s1)
    else if peekPrefix (b "~/") s then
      let* s2 := consume 2 s in
      let s3 := consumeWhile isPathOrSlash s2 in
      Ok (finishToken tok_path_fragment s s3, s3)
    else
      match lpeek s with
      | Some c =>
          if isPathOrSlash c then
            let s3 := consumeWhile isPathOrSlash s in Ok (finishToken tok_path_fragment s s3, s3)
          else Ok (finishToken tok_path_end s s, s)
      | None => Crash "lexPath: peekUnwrap at eof"
      end.

(** Lexer.cpp:413-427, the loop of a string part *)
Fixpoint strpart_aux (r : bytes) (p : cursor) : cursor * bytes :=
  match r with
  | [] => (p, [])
  | c :: r1 =>
      if Ascii.eqb c "\" then (p, r)
      else if Ascii.eqb c """" then (p, r)
      else
        match r1 with
        | c2 :: r2 =>
            match r2 with
            | c3 :: r3 =>
                if Ascii.eqb c "$" && Ascii.eqb c2 "$" && Ascii.eqb c3 "{"
                then strpart_aux r3 (adv c3 (adv c2 (adv c p)))
                else if Ascii.eqb c "$" && Ascii.eqb c2 "{" then (p, r)
                else strpart_aux r1 (adv c p)
            | [] =>
                if Ascii.eqb c "$" && Ascii.eqb c2 "{" then (p, r) else strpart_aux r1 (adv c p)
            end
        | [] => strpart_aux r1 (adv c p)
        end
  end.

(** Lexer.cpp:384-430 lexString *)
Definition lexString (s : lst) : res (token * lst) :=
  match lpeek s with
  | None => Ok (finishToken tok_eof s s, s)
  | Some c =>
      if Ascii.eqb c """" then let* s1 := consume 1 s in Ok (finishToken tok_dquote s s1, s1)
      else if Ascii.eqb c "\" then let* s1 := consume 2 s in Ok (finishToken tok_string_escape s s1, s1)
      else
        let* (dc, s1) := consumePrefix (b "${") s in
        if dc then Ok (finishToken tok_dollar_curly s s1, s1)
        else
          let '(p, r) := strpart_aux (rest s) (cur s) in
          let s2 := Lst p r (diags s) in
          Ok (finishToken tok_string_part s s2, s2)
  end.

(** Lexer.cpp:457-468, the loop of an indented string part *)
Fixpoint indpart_aux (r : bytes) (p : cursor) : cursor * bytes :=
  match r with
  | [] => (p, [])
  | c :: r1 =>
      match r1 with
      | c2 :: r2 =>
          if Ascii.eqb c "'" && Ascii.eqb c2 "'" then (p, r)
          else
            match r2 with
            | c3 :: r3 =>
                if Ascii.eqb c "$" && Ascii.eqb c2 "$" && Ascii.eqb c3 "{"
                then indpart_aux r3 (adv c3 (adv c2 (adv c p)))
                else if Ascii.eqb c "$" && Ascii.eqb c2 "{" then (p, r)
                else indpart_aux r1 (adv c p)
            | [] =>
                if Ascii.eqb c "$" && Ascii.eqb c2 "{" then (p, r) else indpart_aux r1 (adv c p)
            end
      | [] => indpart_aux r1 (adv c p)
      end
  end.

(** Lexer.cpp:432-470 lexIndString *)
Definition lexIndString (s : lst) : res (token * lst) :=
  if eof s then Ok (finishToken tok_eof s s, s)
  else
    let* (q, s1) := consumePrefix (b "''") s in
    if q then
      let* (d, s2) := consumePrefix (b "$") s1 in
      if d then Ok (finishToken tok_string_escape s s2, s2)
      else
        let* (q3, s3) := consumePrefix (b "'") s1 in
        if q3 then Ok (finishToken tok_string_escape s s3, s3)
        else
          let* (bs, s4) := consumePrefix (b "\") s1 in
          if bs then let* s5 := consume 1 s4 in Ok (finishToken tok_string_escape s s5, s5)
          else Ok (finishToken tok_quote2 s s1, s1)
    else
      let* (dc, s6) := consumePrefix (b "${") s in
      if dc then Ok (finishToken tok_dollar_curly s s6, s6)
      else
        let '(p, r) := indpart_aux (rest s) (cur s) in
        let s7 := Lst p r (diags s) in
        Ok (finishToken tok_string_part s s7, s7).

(** "if (consumePrefix(P)) Tok = K1; else { consume(); Tok = K2; }" *)
Definition prefix_or (p : string) (k1 k2 : tkind) (s : lst) : res (tkind * lst) :=
  let* (y, s1) := consumePrefix (b p) s in
  if y then Ok (k1, s1) else let* s2 := consume 1 s in Ok (k2, s2).

(** "consume(); Tok = K;" *)
Definition single (k : tkind) (s : lst) : res (tkind * lst) :=
  let* s1 := consume 1 s in Ok (k, s1).

(** "if (consumePrefix(P)) Tok = K;" *)
Definition prefix_only (p : string) (k : tkind) (s : lst) : res (tkind * lst) :=
  let* (y, s1) := consumePrefix (b p) s in Ok (if y then k else tok_unknown, s1).

(** Lexer.cpp:526-669, the switch on the first character *)
Definition lexOp (c : ascii) (s : lst) : res (tkind * lst) :=
  if Ascii.eqb c "'" then prefix_only "''" tok_quote2 s
  else if Ascii.eqb c "+" then prefix_or "++" tok_op_concat tok_op_add s
  else if Ascii.eqb c "-" then prefix_or "->" tok_op_impl tok_op_negate s
  else if Ascii.eqb c "*" then single tok_op_mul s
  else if Ascii.eqb c "/" then prefix_or "//" tok_op_update tok_op_div s
  else if Ascii.eqb c "|" then
    (* lines 559-564: two independent ifs, no else *)
    let* (y, s1) := consumePrefix (b "||") s in
    let k1 := if y then tok_op_or else tok_unknown in
    let* (z, s2) := consumePrefix (b "|>") s1 in
    Ok (if z then tok_op_pipe_into else k1, s2)
  else if Ascii.eqb c "!" then prefix_or "!=" tok_op_neq tok_op_not s
  else if Ascii.eqb c "<" then
    let* (y, s1) := consumePrefix (b "<=") s in
    if y then Ok (tok_op_le, s1) else prefix_or "<|" tok_op_pipe_from tok_op_lt s
  else if Ascii.eqb c ">" then prefix_or ">=" tok_op_ge tok_op_gt s
  else if Ascii.eqb c "&" then prefix_only "&&" tok_op_and s
  else if Ascii.eqb c """" then single tok_dquote s
  else if Ascii.eqb c "}" then single tok_r_curly s
  else if Ascii.eqb c "." then prefix_or "..." tok_ellipsis tok_dot s
  else if Ascii.eqb c "@" then single tok_at s
  else if Ascii.eqb c ":" then single tok_colon s
  else if Ascii.eqb c "?" then single tok_question s
  else if Ascii.eqb c ";" then single tok_semi_colon s
  else if Ascii.eqb c "=" then prefix_or "==" tok_op_eq tok_eq s
  else if Ascii.eqb c "{" then single tok_l_curly s
  else if Ascii.eqb c "(" then single tok_l_paren s
  else if Ascii.eqb c ")" then single tok_r_paren s
  else if Ascii.eqb c "[" then single tok_l_bracket s
  else if Ascii.eqb c "]" then single tok_r_bracket s
  else if Ascii.eqb c "," then single tok_comma s
  else if Ascii.eqb c "$" then prefix_only "${" tok_dollar_curly s
  else Ok (tok_unknown, s).

(** Lexer.cpp:484-493, 494-501: attempt a path, then a URI *)
Definition tryPath (c : ascii) (s : lst) : res (bool * lst) :=
  if isPathChar c || Ascii.eqb c "/" || Ascii.eqb c "~" then consumePathStart s else Ok (false, s).
Definition tryURI (c : ascii) (s : lst) : res (bool * lst) :=
  if isalpha c then consumeURI s else Ok (false, s).
(** Lexer.cpp:516-524 *)
Definition trySPath (c : ascii) (s : lst) : res (bool * lst) :=
  if Ascii.eqb c "<" then consumeSPath s else Ok (false, s).

(** Lexer.cpp:475-673, lex() after the trivia *)
Definition lexToken (s : lst) : res (token * lst) :=
  match lpeek s with
  | None => Ok (finishToken tok_eof s s, s)
  | Some c =>
      let* (isp, s1) := tryPath c s in
      if isp then Ok (finishToken tok_path_fragment s s1, s1)
      else
        let* (isu, s2) := tryURI c s in
        if isu then Ok (finishToken tok_uri s s2, s2)
        else if isdigit c then
          let* (k, s3) := lexNumbers s in Ok (finishToken k s s3, s3)
        else if isalpha c || Ascii.eqb c "_" then
          let* s4 := lexIdentifier s in
          Ok (finishToken (maybeKW (slice_between s s4)) s s4, s4)
        else
          let* (issp, s5) := trySPath c s in
          if issp then Ok (finishToken tok_spath s s5, s5)
          else
            let* (k, s6) := lexOp c s in
            if tkind_beq k tok_unknown
            then let* s7 := consume 1 s6 in Ok (finishToken k s s7, s7)
            else Ok (finishToken k s s6, s6)
  end.

(** Lexer.cpp:472-673 lex() *)
Definition lex (s : lst) : res (token * lst) :=
  let* s1 := consumeTrivia s in lexToken s1.

(** Lexer.h:122-123 constructor *)
Definition lex_init (src : bytes) : lst := Lst cur0 src [].

(** Lexer.h:126-129 setCur; the assertion is NewCur.Offset <= Src.length() *)
Definition setCur (src : bytes) (c : cursor) (s : lst) : res lst :=
  if Nat.leb (off c) (List.length src) then Ok (Lst c (skipn (off c) src) (diags s))
  else Crash "Lexer::setCur: out of bounds".

(** The parser asks for tokens in one of four modes: ParseSupport.cpp:63-81, Parser.h:33-38 *)
Inductive pmode := PS_Expr | PS_String | PS_IndString | PS_Path.
Definition lex_mode (m : pmode) (s : lst) : res (token * lst) :=
  match m with
  | PS_Expr => lex s
  | PS_String => lexString s
  | PS_IndString => lexIndString s
  | PS_Path => lexPath s
  end.

(** Tokenising a whole document in expression mode: the loop every client of lex() runs.  The list ends
    with the end-of-file token. *)
Fixpoint lex_all_f (fuel : nat) (s : lst) : res (list token * lst) :=
  match fuel with
  | 0 => OutOfFuel
  | S fuel' =>
      let* (t, s1) := lex s in
      if tkind_beq (tk t) tok_eof then Ok ([t], s1)
      else let* (ts, s2) := lex_all_f fuel' s1 in Ok (t :: ts, s2)
  end.
Definition lex_all (src : bytes) : res (list token * lst) :=
  lex_all_f (S (List.length src)) (lex_init src).
