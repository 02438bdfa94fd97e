(** Model of the text-producing code actions: nixd/lib/Controller/CodeActions/{Utils,JsonToNix,AttrName,
    RewriteString}.cpp. *)
From Verif Require Import Base Diag LexModel AstModel PSupModel SemaModel NavModel ConnModel.

(** Utils.cpp:31-34 the first character of an identifier *)
Definition ident_first (c : ascii) : bool := isalpha c || Ascii.eqb c "_".
(** Utils.cpp:38-43 the other characters *)
Definition ident_rest (c : ascii) : bool :=
  isalpha c || isdigit c || Ascii.eqb c "_" || Ascii.eqb c "-" || Ascii.eqb c "'".
(** Utils.cpp:46-49 *)
Definition reserved : list bytes :=
  map b ["if"; "then"; "else"; "assert"; "with"; "let"; "in"; "rec"; "inherit"; "or"; "true"; "false";
         "null"]%string.
(** Utils.cpp:27-51 isValidNixIdentifier *)
Definition isValidNixIdentifier (s : bytes) : bool :=
  match s with
  | [] => false
  | c :: r =>
      ident_first c && forallb ident_rest r && negb (existsb (bytes_eqb s) reserved)
  end.

(** Utils.cpp:53-87 escapeNixString *)
Fixpoint escapeNixString (s : bytes) : bytes :=
  match s with
  | [] => []
  | c :: r =>
      if Ascii.eqb c """" then b "\""" ++ escapeNixString r
      else if Ascii.eqb c "\" then b "\\" ++ escapeNixString r
      else if Ascii.eqb c "010" then b "\n" ++ escapeNixString r
      else if Ascii.eqb c "013" then b "\r" ++ escapeNixString r
      else if Ascii.eqb c "009" then b "\t" ++ escapeNixString r
      else if Ascii.eqb c "$" then
        match r with
        | c2 :: r2 => if Ascii.eqb c2 "{" then b "\${" ++ escapeNixString r2 else c :: escapeNixString r
        | [] => c :: escapeNixString r
        end
      else c :: escapeNixString r
  end.

(** Utils.cpp:89-94 quoteNixAttrKey *)
Definition quoteNixAttrKey (k : bytes) : bytes :=
  if isValidNixIdentifier k then k else b """" ++ escapeNixString k ++ b """".

(** ** JsonToNix.cpp *)

(** Utils.h:44, 47 *)
Definition MaxJsonDepth : nat := 100.
Definition MaxJsonWidth : N := 10000.

(** std::to_string of an int64_t *)
Definition int_text (z : Z) : bytes :=
  match z with
  | Z0 => b "0"
  | Zpos p => decimal_of (Npos p)
  | Zneg p => b "-" ++ decimal_of (Npos p)
  end.

(** A.size() > MaxJsonWidth *)
Definition too_wide {A} (l : list A) : bool := N.ltb MaxJsonWidth (N.of_nat (List.length l)).

Definition LF : bytes := ["010"%char].
(** std::string(Indent * 2, ' ') *)
Definition spaces (n : nat) : bytes := repeat " "%char (n * 2).

(** JsonToNix.cpp:50-57, 74-83: the lines of the elements; [None] is the propagated error (an element whose text
    is empty) *)
Fixpoint lines (pad : bytes) (xs : list bytes) : option bytes :=
  match xs with
  | [] => Some []
  | x :: xs' =>
      match lines pad xs' with
      | None => None
      | Some t => match x with
                  | [] => None
                  | _ => Some (pad ++ x ++ match xs' with [] => [] | _ => LF ++ t end)
                  end
      end
  end.

(** JsonToNix.cpp:21-88 jsonToNix.  The empty text is an error.  Not modelled: the text of a number that has no
    int64 value (std::setprecision(17)), for which the model answers the error; the order in which the fields of
    an object are visited is the order of the list. *)
Fixpoint jsonToNix (v : json) (indent depth : nat) : bytes :=
  if Nat.ltb MaxJsonDepth depth then [] else
  match v with
  | JNull => b "null"
  | JBool x => if x then b "true" else b "false"
  | JInt z => int_text z
  | JDouble (Some z) => int_text z
  | JDouble None => []
  | JString s => b """" ++ escapeNixString s ++ b """"
  | JArray l =>
      if too_wide l then []
      else match l with
           | [] => b "[ ]"
           | _ =>
               match lines (spaces (S indent)) (map (fun x => jsonToNix x (S indent) (S depth)) l) with
               | None => []
               | Some t => b "[" ++ LF ++ t ++ LF ++ spaces indent ++ b "]"
               end
           end
  | JObject o =>
      if too_wide o then []
      else match o with
           | [] => b "{ }"
           | _ =>
               match lines (spaces (S indent))
                       (map (fun kv => match jsonToNix (snd kv) (S indent) (S depth) with
                                       | [] => []
                                       | t => quoteNixAttrKey (fst kv) ++ b " = " ++ t ++ b ";"
                                       end) o) with
               | None => []
               | Some t => b "{" ++ LF ++ t ++ LF ++ spaces indent ++ b "}"
               end
           end
  end.

(** JsonToNix.cpp:117-146 addJsonToNixAction, from the selected text [sel] and the JSON value it parses to (llvm's
    JSON parser is not modelled): the new text when the action is offered *)
Definition jsonAction (sel : bytes) (v : json) : option bytes :=
  if Nat.ltb (List.length sel) 2 then None
  else match sel with
       | c :: _ =>
           if Ascii.eqb c "{" || Ascii.eqb c "[" then
             match v with
             | JArray [] | JObject [] => None
             | _ => match jsonToNix v 0 0 with [] => None | t => Some t end
             end
           else None
       | [] => None
       end.

(** ** AttrName.cpp *)

(** AttrName.cpp:14-39 addAttrNameActions, at the level of the enclosing attribute name: the range that is
    replaced and the new text *)
Definition attrNameAction (an : node) : option (range * bytes) :=
  match an with
  | NAttrName _ r (NIdent _ _ x) => Some (r, b """" ++ x ++ b """")
  | NAttrName _ r (NString _ _ _) =>
      match staticName an with
      | Some x => if isValidNixIdentifier x then Some (r, x) else None
      | None => None
      end
  | _ => None
  end.

(** ** RewriteString.cpp *)

(** RewriteString.cpp:18-24 isIndentedString *)
Definition isIndentedString (src : bytes) (r : range) : bool :=
  starts_with (b "''") (skipn (off (lcur r)) src).

(** RewriteString.cpp:31-56 escapeForIndentedString *)
Fixpoint escapeForIndentedString (s : bytes) : bytes :=
  match s with
  | [] => []
  | c :: r =>
      match r with
      | c2 :: r2 =>
          if Ascii.eqb c "'" && Ascii.eqb c2 "'" then b "'''" ++ escapeForIndentedString r2
          else if Ascii.eqb c "$" && Ascii.eqb c2 "{" then b "''${" ++ escapeForIndentedString r2
          else c :: escapeForIndentedString r
      | [] => c :: escapeForIndentedString r
      end
  end.

(** RewriteString.cpp:62-79, 85-102: the text of the fragments *)
Fixpoint buildParts (src : bytes) (esc : bytes -> bytes) (fs : list (bytes + node)) : res bytes :=
  match fs with
  | [] => Ok []
  | inl t :: fs' => let* rst := buildParts src esc fs' in Ok (esc t ++ rst)
  | inr n :: fs' =>
      let* t := nsrc src n in
      let* rst := buildParts src esc fs' in Ok (t ++ rst)
  end.

(** RewriteString.cpp:106-146 addRewriteStringAction, at the level of the enclosing string *)
Definition rewriteString (src : bytes) (n : node) : res (option (range * bytes)) :=
  match n with
  | NString _ r (NParts _ _ fs) =>
      if isIndentedString src r then
        let* t := buildParts src escapeNixString fs in Ok (Some (r, b """" ++ t ++ b """"))
      else
        let* t := buildParts src escapeForIndentedString fs in Ok (Some (r, b "''" ++ t ++ b "''"))
  | _ => Ok None
  end.

(** RewriteString.cpp:106-117: the string to rewrite, if any, for the node under the cursor *)
Definition stringAt (pm : pmap) (n : node) : res (option node) :=
  let* o := upTo pm n NK_ExprString in
  match o with
  | None => Ok None
  | Some s => let* a := upTo pm s NK_AttrName in Ok (match a with Some _ => None | None => Some s end)
  end.
(** AttrName.cpp:17 *)
Definition attrNameAt (pm : pmap) (n : node) : res (option node) := upTo pm n NK_AttrName.
