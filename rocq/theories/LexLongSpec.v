(** Specification vocabulary for C66 (where tokens end) and C67 (what the lexer reports). *)
From Verif Require Import Base Diag LexModel LexSpec.

Definition begins (p s : bytes) : Prop := exists r, s = p ++ r.
(** the text [r] goes on with a character of the class [Q] *)
Definition next (Q : ascii -> Prop) (r : bytes) : Prop := match r with [] => False | c :: _ => Q c end.

(** inside a string part every "${" comes after another dollar sign *)
Definition dollars_escaped (v : bytes) : Prop :=
  forall x y, v = x ++ b "${" ++ y -> exists x', x = x' ++ b "$".

(** a "${" that follows the string part [v] is not preceded by a dollar sign *)
Definition dollars_over (v r : bytes) : Prop := begins (b "${") r -> ~ exists x, v = x ++ b "$".
(** no two quotes stand anywhere before the end of the string part [v] *)
Definition quotes_over (v r : bytes) : Prop := forall x y, v ++ r = x ++ b "''" ++ y -> List.length v <= List.length x.

Definition word_kinds : list tkind :=
  [tok_id; tok_kw_if; tok_kw_then; tok_kw_else; tok_kw_assert; tok_kw_with; tok_kw_let; tok_kw_in; tok_kw_rec;
   tok_kw_inherit; tok_kw_or].

(** [longest m k v r]: a token of kind [k] with the text [v], read in mode [m], may end where the text goes on with
    [r]. *)
Definition longest (m : pmode) (k : tkind) (v r : bytes) : Prop :=
  match m with
  | PS_Expr =>
      (* no keyword, operator or punctuation that starts here is longer, and an unknown token starts none *)
      (forall k' v', In (k', v') documented -> begins v' (v ++ r) ->
         List.length v' <= List.length v /\ k <> tok_unknown) /\
      (* words and numbers do not stop in the middle *)
      (In k word_kinds -> ~ next id_char r) /\
      (k = tok_int -> ~ next (fun c => digit c \/ c = "."%char) r) /\
      (k = tok_float -> ~ next digit r) /\
      (k = tok_uri -> ~ next uri_char r) /\
      (* a path goes on *)
      (k = tok_path_fragment -> next path_char r \/ begins (b "${") r)
  | PS_String =>
      k = tok_string_part ->
        dollars_escaped v /\ dollars_over v r /\
        (r = [] \/ begins (b """") r \/ begins (b "\") r \/ begins (b "${") r)
  | PS_IndString =>
      (k = tok_string_part ->
         dollars_escaped v /\ dollars_over v r /\ quotes_over v r /\
         (r = [] \/ begins (b "''") r \/ begins (b "${") r)) /\
      (k = tok_quote2 -> ~ next (fun c => In c (b "$'\")) r)
  | PS_Path =>
      (k = tok_path_fragment \/ k = tok_path_end -> ~ next (fun c => path_char c \/ c = "/"%char) r) /\
      (k = tok_path_end -> ~ begins (b "${") r)
  end.

(** the place of the document with the offset [o] *)
Definition place (src : bytes) (o : nat) (c : cursor) : Prop := cursor_in src c /\ off c = o.

(** [lexical_error src o left t d]: the lexer, standing at the offset [o] before the text [left], and reading the
    token [t], has to report [d]. *)
Inductive lexical_error (src : bytes) (o : nat) (left : bytes) (t : token) : diag -> Prop :=
| le_comment w body c1 c2 e :
    (* the rest of the document is white space, comments, and a block comment that is never closed *)
    left = w ++ b "/*" ++ body -> trivia w (b "/*" ++ body) -> ~ occurs (b "*/") body ->
    place src (o + List.length w) c1 -> place src (o + List.length w + 2) c2 ->
    place src (o + List.length left) e ->
    lexical_error src o left t
      (Diag_ DK_UnterminatedBComment (mkRange e e) [] [Note_ NK_BCommentBegin (mkRange c1 c2) []]
             [Fix_ (b "insert */") [TEdit (mkRange e e) (b "*/")]] [])
| le_zero c ds more e :
    (* a float with several digits before the dot, the first of which is 0 *)
    tk t = tok_float -> tview t = "0"%char :: c :: ds ++ b "." ++ more -> digit c -> Forall digit ds ->
    place src (off (lcur (trange t)) + 2 + List.length ds) e ->
    lexical_error src o left t
      (Diag_ DK_FloatLeadingZero (mkRange (lcur (trange t)) e) [["0"%char; c]] [] [] [])
| le_exp u x sign :
    (* a float that ends after the e, or its sign *)
    tk t = tok_float -> tview t = u ++ x :: sign -> one_of (b "eE") x -> In sign [[]; b "+"; b "-"] ->
    lexical_error src o left t
      (Diag_ DK_FloatNoExp (mkRange (rcur (trange t)) (rcur (trange t))) [[x]] [] [] []).
