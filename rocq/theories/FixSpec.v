(** What a fix promises by its title (C93).  The title is what the user reads in the menu of quick fixes; the edits are what
    happens to the document.  Offsets are counted in bytes. *)
From Verif Require Import Base Diag LexModel LexSpec AstModel ParseSpec.

Definition removes (src t : bytes) (e : tedit) : Prop := text_of src (e_range e) = t /\ e_text e = [].
Definition inserts (t : bytes) (e : tedit) : Prop := lcur (e_range e) = rcur (e_range e) /\ e_text e = t.
Definition replaces (src t u : bytes) (e : tedit) : Prop := text_of src (e_range e) = t /\ e_text e = u.
(** the edit only takes text away *)
Definition cuts (e : tedit) : Prop := e_text e = [].
(** An address as the language has it: a scheme, a colon, and something. *)
Definition address_text (u : bytes) : Prop :=
  exists c w d v, u = (c :: w) ++ b ":" ++ (d :: v) /\ one_of (lower ++ upper) c /\ Forall scheme_char w /\ uri_char d /\ Forall uri_char v.
(** Titles that name what is removed without spelling it: all of it is the part of the document that the diagnostic marks; *)
Definition marked_titles : list bytes :=
  [ b "remove unexpected text"; b "remove dynamic attrname"; b "remove empty formal"; b "remove unnecessary inherit";
    b "remove `rec` keyword" ].
(** or it begins with the marked part, *)
Definition longer_titles : list bytes := [ b "remove `...`"; b "remove `builtins.` prefix"; b "remove `with` expression" ].
(** Dummies, their texts, and whether they are inserted before the marked part, after it, or elsewhere. *)
Inductive place := Before | After | Elsewhere.
Definition placed (p : place) (mark : range) (e : tedit) : Prop :=
  match p with Before => lcur (e_range e) = lcur mark | After => lcur (e_range e) = rcur mark | Elsewhere => True end.
Definition dummies : list (bytes * (bytes * place)) :=
  [ (b "insert dummy expression", (b " expr", Before)); (b "insert dummy attrpath", (b """dummy""", After));
    (b "insert dummy attrname", (b """dummy""", After)); (b "insert dummy condition", (b "true", Elsewhere));
    (b "insert dummy formals", (b "{}", After)); (b "use `builtins.` prefix", (b "builtins.", Before)) ].
Definition before (e e' : tedit) : Prop := off (rcur (e_range e)) <= off (lcur (e_range e')).

(** [mark] is the part of the document that the diagnostic of the fix marks. *)
Inductive keeps_promise (src : bytes) (mark : range) : bytes -> list tedit -> Prop :=
| keeps_insert t e : inserts t e -> placed Before mark e -> keeps_promise src mark (b "insert " ++ t) [e]
| keeps_dummy title t p e : In (title, (t, p)) dummies -> inserts t e -> placed p mark e -> keeps_promise src mark title [e]
| keeps_parens e e' : removes src (b "(") e -> removes src (b ")") e' -> e_range e = mark -> before e e' ->
    keeps_promise src mark (b "remove ( and )") [e; e']
| keeps_paren e : removes src (b "(") e -> e_range e = mark -> keeps_promise src mark (b "remove (") [e]
| keeps_dot e : removes src (b ".") e -> e_range e = mark -> keeps_promise src mark (b "remove extra .") [e]
| keeps_keyword k e : In k [b "or"; b "if"; b "assert"] -> removes src k e -> keeps_promise src mark (b "remove `" ++ k ++ b "` keyword") [e]
| keeps_inherit e l : removes src (b "inherit") e -> e_range e = mark ->
    (l = [] \/ exists e', l = [e'] /\ removes src (b ";") e' /\ before e e') ->
    keeps_promise src mark (b "remove `inherit` keyword") (e :: l)
| keeps_or e : replaces src (b "or") (b "||") e -> e_range e = mark -> keeps_promise src mark (b "replace 'or' with '||'") [e]
| keeps_string e e' : inserts (b """") e -> inserts (b """") e' -> placed Before mark e -> placed After mark e' ->
    address_text (text_of src mark) -> keeps_promise src mark (b "convert it to string") [e; e']
| keeps_let e1 e2 e3 lo hi : removes src (b "{") e1 -> cuts e2 -> before e1 e2 -> before e2 e3 ->
    off (lcur (e_range e2)) <= lo -> lo <= hi -> hi <= off (rcur (e_range e2)) -> e_text e3 = b "in " ++ slice src lo hi ->
    (text_of src (e_range e3) = b "}" \/ lcur (e_range e3) = rcur (e_range e3)) ->
    keeps_promise src mark (b "convert to `let ... in ...`") [e1; e2; e3]
| keeps_move e0 es e : e_range e0 = mark -> Forall cuts (e0 :: es) ->
    (inserts (text_of src mark) e \/ inserts (b ", " ++ text_of src mark) e) -> List.length es <= 1 ->
    keeps_promise src mark (b "move ellipsis to the tail") ((e0 :: es) ++ [e])
| keeps_at e : cuts e -> e_range e = mark -> keeps_promise src mark (b "remove extra @") [e]
| keeps_unused e : cuts e -> inside mark (e_range e) -> keeps_promise src mark (b "remove unused binding") [e]
| keeps_removal title e : In title marked_titles -> cuts e -> e_range e = mark -> keeps_promise src mark title [e]
| keeps_longer title e es : In title longer_titles -> Forall cuts (e :: es) -> e_range e = mark ->
    List.length es <= 2 -> keeps_promise src mark title (e :: es).
