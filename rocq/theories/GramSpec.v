(** Specification for C68 and C20: the grammar of the Nix language (reference manual, and the tables of tokens.py and
    ParseOp.cpp:18-31), as a relation between syntax trees and sequences of lexical items, and how a sequence of
    items makes up a document.  Nothing of the parser is used. *)
From Verif Require Import Base Diag LexModel LexSpec LexProofs LexLongSpec AstModel.

(** A lexical item: its text [v] is a token of kind [k] in the lexical mode [m]; a [glued] item follows the previous
    one without anything between. *)
Inductive item := It (glued : bool) (m : pmode) (k : tkind) (v : bytes).
Definition kind_of_item (i : item) : tkind := match i with It _ _ k _ => k end.

(** [layout its text]: the text is the items in this order, with white space and comments before items that are not
    glued and at the end, and nothing else.  Items are as long as possible (C66).  ([odd_token]: the two exceptions to
    the spelling of tokens, C05.) *)
Inductive layout : list item -> bytes -> Prop :=
| layout_end w : trivia w [] -> layout [] w
| layout_item g m k v its w more :
    trivia w (v ++ more) -> (g = true -> w = []) ->
    spelled m k v \/ (m = PS_Expr /\ odd_token k v) -> longest m k v more ->
    layout its more -> layout (It g m k v :: its) (w ++ v ++ more).

(** * Precedence *)
(** the operators: binary, prefix, and [? attrpath] *)
Inductive opr := Bin (k : tkind) | Pre (k : tkind) | Has.
Inductive assoc := LeftA | RightA | NonA.
(** ParseOp.cpp:18-31 (the documented table), weakest first *)
Definition documented_op (o : opr) : option (nat * assoc) :=
  match o with
  | Bin tok_op_pipe_into => Some (1, LeftA)
  | Bin tok_op_pipe_from => Some (1, RightA)
  | Bin tok_op_impl => Some (2, RightA)
  | Bin tok_op_or => Some (3, LeftA)
  | Bin tok_op_and => Some (4, LeftA)
  | Bin tok_op_eq | Bin tok_op_neq => Some (5, NonA)
  | Bin tok_op_lt | Bin tok_op_gt | Bin tok_op_le | Bin tok_op_ge => Some (6, NonA)
  | Bin tok_op_update => Some (7, RightA)
  | Pre tok_op_not => Some (8, LeftA)
  | Bin tok_op_add | Bin tok_op_negate => Some (9, LeftA)
  | Bin tok_op_mul | Bin tok_op_div => Some (10, LeftA)
  | Bin tok_op_concat => Some (11, RightA)
  | Has => Some (12, NonA)
  | Pre tok_op_negate => Some (13, NonA)
  | _ => None
  end.

(** [closes o1 o2]: in [.. o1 x o2 ..] the operand [x] goes to [o1] *)
Definition closes (o1 o2 : opr) : Prop :=
  exists n1 a1 n2 a2, documented_op o1 = Some (n1, a1) /\ documented_op o2 = Some (n2, a2) /\
    (n2 < n1 \/ (n1 = n2 /\ a1 = LeftA /\ a2 = LeftA)).
(** [nests o1 o2]: in [.. o1 x o2 ..] the operand [x] goes to [o2] *)
Definition nests (o1 o2 : opr) : Prop :=
  exists n1 a1 n2 a2, documented_op o1 = Some (n1, a1) /\ documented_op o2 = Some (n2, a2) /\
    (n1 < n2 \/ (n1 = n2 /\ a1 = RightA /\ a2 = RightA)).

(** Pairs which nixd groups against the table (see C20_refuted). *)
Inductive misgrouped : opr -> opr -> Prop :=
| mis_div k : In k [tok_op_mul; tok_op_div; tok_op_concat] -> misgrouped (Bin k) (Bin tok_op_div)
| mis_into : misgrouped (Bin tok_op_pipe_into) (Bin tok_op_pipe_into)
| mis_from : misgrouped (Bin tok_op_pipe_from) (Bin tok_op_pipe_from)
| mis_not : misgrouped (Pre tok_op_not) (Bin tok_op_update)
| mis_neg : misgrouped (Pre tok_op_negate) Has
| mis_has : misgrouped Has Has.

(** the operators whose right (left) operand reaches to the right (left) end of an expression *)
Fixpoint right_edge (n : node) : list opr :=
  match n with
  | NBinOp _ _ (NOp _ _ k) _ (Some r) => Bin k :: right_edge r
  | NUnary _ _ (NOp _ _ k) (Some e) => Pre k :: right_edge e
  | NHasAttr _ _ _ _ _ => [Has]
  | _ => []
  end.
Fixpoint left_edge (n : node) : list opr :=
  match n with
  | NBinOp _ _ (NOp _ _ k) (Some l) _ => Bin k :: left_edge l
  | NHasAttr _ _ _ (Some e) _ => Has :: left_edge e
  | _ => []
  end.

(** * Small things *)
(** the number a digit string denotes *)
Inductive numeral : bytes -> N -> Prop :=
| numeral_nil : numeral [] 0
| numeral_snoc v n c d :
    numeral v n -> nth_error digits d = Some c -> numeral (v ++ [c]) (10 * n + N.of_nat d).

(** the text an escape stands for (reference manual, string literals) *)
Definition backslash (c : ascii) : ascii :=
  if Ascii.eqb c "n" then "010"%char else if Ascii.eqb c "r" then "013"%char
  else if Ascii.eqb c "t" then "009"%char else c.
Inductive escape : pmode -> bytes -> bytes -> Prop :=
| esc_dquoted c : escape PS_String ["\"%char; c] [backslash c]
| esc_dollar : escape PS_IndString (b "''$") (b "$")
| esc_quotes : escape PS_IndString (b "'''") (b "''")
| esc_indented c : escape PS_IndString (b "''\" ++ [c]) [backslash c].

(** contents of a string or path, byte by byte, interpolations in between *)
Definition flatten (fs : list (bytes + node)) : list (ascii + node) :=
  flat_map (fun f => match f with inl t => map inl t | inr n => [inr n] end) fs.

(** an expression token *)
Definition E (k : tkind) (v : bytes) : item := It false PS_Expr k v.

Definition binops : list tkind :=
  [tok_op_impl; tok_op_or; tok_op_and; tok_op_eq; tok_op_neq; tok_op_lt; tok_op_gt; tok_op_le; tok_op_ge;
   tok_op_update; tok_op_add; tok_op_negate; tok_op_mul; tok_op_div; tok_op_concat; tok_op_pipe_into;
   tok_op_pipe_from].

(** * The grammar *)
Inductive sym :=
| Expr (n : node) | Op (n : node) | App (n : node) | Sel (n : node) | Simple (n : node)
| Sels (ns : list node)                                  (* zero or more *)
| Str (ind : bool) (n : node)                            (* "..." or ''...'' *)
| Parts (m : pmode) (fs : list (ascii + node))           (* the inside of a string *)
| Frags (first : bool) (fs : list (ascii + node))        (* a path, or the rest of it after an interpolation *)
| Interp (g : bool) (m : pmode) (n : node)               (* ${...} *)
| Name (n : node) | Names (ns : list node)
| AttrPath (ns : list node)
| Bind (n : node) | Binds (ns : list node)
| BindsO (o : option node)                               (* the optional node holding the bindings *)
| Default (o : option node)
| Formals (comma : bool) (ns : list node)                (* [comma]: something precedes *)
| FormalSet (n : node)                                   (* { ... } *)
| Arg (n : node).

Section Grammar.
(** [strict = true] is Nix; [strict = false] adds the few productions marked (!) below. *)
Variable strict : bool.
(** [at_ n its]: what else is asked of a node [n] and the items [its] it is made of (where its text is, see [spans]);
    asked of every node except operator expressions that are operands of others *)
Variable at_ : node -> list item -> Prop.

Definition closes_ (o1 o2 : opr) : Prop := closes o1 o2 \/ (strict = false /\ misgrouped o1 o2).
Definition nests_ (o1 o2 : opr) : Prop := nests o1 o2 \/ (strict = false /\ misgrouped o1 o2).

Inductive gram_at : sym -> list item -> Prop :=
(* expressions *)
| g_op n its : gram_at (Op n) its -> gram_at (Expr n) its
| g_if i r c t e v1 v2 v3 i1 i2 i3 :
    gram_at (Expr c) i1 -> at_ c i1 -> gram_at (Expr t) i2 -> at_ t i2 -> gram_at (Expr e) i3 -> at_ e i3 ->
    gram_at (Expr (NIf i r (Some c) (Some t) (Some e)))
         ([E tok_kw_if v1] ++ i1 ++ [E tok_kw_then v2] ++ i2 ++ [E tok_kw_else v3] ++ i3)
| g_assert i r c e v1 v2 i1 i2 :
    gram_at (Expr c) i1 -> at_ c i1 -> gram_at (Expr e) i2 -> at_ e i2 ->
    gram_at (Expr (NAssert i r (Some c) (Some e))) ([E tok_kw_assert v1] ++ i1 ++ [E tok_semi_colon v2] ++ i2)
| g_with i r kw semi w e v1 v2 i1 i2 :
    gram_at (Expr w) i1 -> at_ w i1 -> gram_at (Expr e) i2 -> at_ e i2 ->
    gram_at (Expr (NWith i r kw (Some semi) (Some w) (Some e)))
         ([E tok_kw_with v1] ++ i1 ++ [E tok_semi_colon v2] ++ i2)
| g_let_none i r kl ki e v1 v2 i2 :
    gram_at (Expr e) i2 -> at_ e i2 ->
    gram_at (Expr (NLet i r kl (Some ki) (Some e) None)) ([E tok_kw_let v1] ++ [E tok_kw_in v2] ++ i2)
| g_let i r kl ki e ia ra bs kl' st dy v1 v2 i1 i2 :
    gram_at (BindsO (Some bs)) i1 -> gram_at (Expr e) i2 -> at_ e i2 ->
    gram_at (Expr (NLet i r kl (Some ki) (Some e) (Some (NAttrs ia ra (Some bs) (Some kl') st dy))))
         ([E tok_kw_let v1] ++ i1 ++ [E tok_kw_in v2] ++ i2)
| g_legacy_let i r kl ia ra bs kl' st dy v1 v2 v3 i1 :
    gram_at (BindsO bs) i1 ->
    gram_at (Expr (NLegacyLet i r kl (Some (NAttrs ia ra bs (Some kl') st dy))))
         ([E tok_kw_let v1; E tok_l_curly v2] ++ i1 ++ [E tok_r_curly v3])
| g_lambda i r a e v i1 i2 :
    gram_at (Arg a) i1 -> gram_at (Expr e) i2 -> at_ e i2 ->
    gram_at (Expr (NLambda i r (Some a) (Some e))) (i1 ++ [E tok_colon v] ++ i2)
(* operators *)
| g_app n its : gram_at (App n) its -> gram_at (Op n) its
| g_unary i r io ro k e v i1 :
    In k [tok_op_not; tok_op_negate] -> gram_at (Op e) i1 -> Forall (nests_ (Pre k)) (left_edge e) ->
    gram_at (Op (NUnary i r (NOp io ro k) (Some e))) ([E k v] ++ i1)
| g_binary i r io ro k l rh v i1 i2 :
    In k binops -> gram_at (Op l) i1 -> gram_at (Op rh) i2 ->
    Forall (fun o => closes_ o (Bin k)) (right_edge l) -> Forall (nests_ (Bin k)) (left_edge rh) ->
    gram_at (Op (NBinOp i r (NOp io ro k) (Some l) (Some rh))) (i1 ++ [E k v] ++ i2)
| g_has i r io ro l ip rp ns ds v i1 i2 :
    gram_at (Op l) i1 -> gram_at (AttrPath ns) i2 -> at_ (NAttrPath ip rp ns ds) i2 -> Forall (fun o => closes_ o Has) (right_edge l) ->
    gram_at (Op (NHasAttr i r (NOp io ro tok_question) (Some l) (Some (NAttrPath ip rp ns ds))))
         (i1 ++ [E tok_question v] ++ i2)
| g_has_nothing i r io ro l v i1 :                                                          (* (!)  e ? *)
    strict = false -> gram_at (Op l) i1 -> Forall (fun o => closes_ o Has) (right_edge l) ->
    gram_at (Op (NHasAttr i r (NOp io ro tok_question) (Some l) None)) (i1 ++ [E tok_question v])
(* application and selection *)
| g_sel n its : gram_at (Sel n) its -> gram_at (App n) its
| g_call i r f args i1 i2 :
    gram_at (Sel f) i1 -> at_ f i1 -> gram_at (Sels args) i2 -> args <> [] -> gram_at (App (NCall i r f args)) (i1 ++ i2)
| g_sels_nil : gram_at (Sels []) []
| g_sels_snoc ns n i1 i2 : gram_at (Sels ns) i1 -> gram_at (Sel n) i2 -> at_ n i2 -> gram_at (Sels (ns ++ [n])) (i1 ++ i2)
| g_simple n its : gram_at (Simple n) its -> gram_at (Sel n) its
| g_select i r e dot ip rp ns ds v i1 i2 :
    gram_at (Simple e) i1 -> at_ e i1 -> gram_at (AttrPath ns) i2 -> at_ (NAttrPath ip rp ns ds) i2 ->
    gram_at (Sel (NSelect i r e (Some dot) (Some (NAttrPath ip rp ns ds)) None None)) (i1 ++ [E tok_dot v] ++ i2)
| g_select_or i r e dot ip rp ns ds d v v2 i1 i2 i3 :
    gram_at (Simple e) i1 -> at_ e i1 -> gram_at (AttrPath ns) i2 -> at_ (NAttrPath ip rp ns ds) i2 -> gram_at (Sel d) i3 -> at_ d i3 ->
    gram_at (Sel (NSelect i r e (Some dot) (Some (NAttrPath ip rp ns ds)) (Some d) None))
         (i1 ++ [E tok_dot v] ++ i2 ++ [E tok_kw_or v2] ++ i3)
(* simple expressions *)
| g_var i r ii ri v : gram_at (Simple (NVar i r (NIdent ii ri v))) [E tok_id v]
| g_int i r n v : numeral v n -> (n < 2 ^ 63)%N -> gram_at (Simple (NInt i r n)) [E tok_int v]
| g_float i r v : gram_at (Simple (NFloat i r)) [E tok_float v]
| g_spath i r t : gram_at (Simple (NSPath i r t)) [E tok_spath (b "<" ++ t ++ b ">")]
| g_uri i r ip rp v : gram_at (Simple (NString i r (NParts ip rp [inl v]))) [E tok_uri v]
| g_string ind n its : gram_at (Str ind n) its -> gram_at (Simple n) its
| g_path i r ip rp fs its :
    gram_at (Frags true (flatten fs)) its -> gram_at (Simple (NPath i r (NParts ip rp fs))) its
| g_paren i r e lp rp v1 v2 i1 :
    gram_at (Expr e) i1 -> at_ e i1 ->
    gram_at (Simple (NParen i r (Some e) lp (Some rp))) ([E tok_l_paren v1] ++ i1 ++ [E tok_r_paren v2])
| g_list i r ns v1 v2 i1 :
    gram_at (Sels ns) i1 -> gram_at (Simple (NList i r ns)) ([E tok_l_bracket v1] ++ i1 ++ [E tok_r_bracket v2])
| g_attrs i r bs st dy v1 v2 i1 :
    gram_at (BindsO bs) i1 ->
    gram_at (Simple (NAttrs i r bs None st dy)) ([E tok_l_curly v1] ++ i1 ++ [E tok_r_curly v2])
| g_rec_attrs i r bs rc st dy v0 v1 v2 i1 :
    gram_at (BindsO bs) i1 ->
    gram_at (Simple (NAttrs i r bs (Some rc) st dy))
         ([E tok_kw_rec v0; E tok_l_curly v1] ++ i1 ++ [E tok_r_curly v2])
(* strings and paths *)
| g_dquoted i r ip rp fs v1 v2 i1 :
    gram_at (Parts PS_String (flatten fs)) i1 ->
    gram_at (Str false (NString i r (NParts ip rp fs))) ([E tok_dquote v1] ++ i1 ++ [It true PS_String tok_dquote v2])
| g_indented i r ip rp fs v1 v2 i1 :
    gram_at (Parts PS_IndString (flatten fs)) i1 ->
    gram_at (Str true (NString i r (NParts ip rp fs))) ([E tok_quote2 v1] ++ i1 ++ [It true PS_IndString tok_quote2 v2])
| g_parts_nil m : gram_at (Parts m []) []
| g_parts_text m fs v i1 :
    gram_at (Parts m fs) i1 -> gram_at (Parts m (fs ++ map inl v)) (i1 ++ [It true m tok_string_part v])
| g_parts_escape m fs v u i1 :
    gram_at (Parts m fs) i1 -> escape m v u ->
    gram_at (Parts m (fs ++ map inl u)) (i1 ++ [It true m tok_string_escape v])
| g_parts_escape_ind fs v i1 :                         (* (!) every escape in ''...'' is read as a single quote *)
    strict = false -> gram_at (Parts PS_IndString fs) i1 ->
    gram_at (Parts PS_IndString (fs ++ map inl (b "'"))) (i1 ++ [It true PS_IndString tok_string_escape v])
| g_parts_interp m fs n i1 i2 :
    gram_at (Parts m fs) i1 -> gram_at (Interp true m n) i2 -> gram_at (Parts m (fs ++ [inr n])) (i1 ++ i2)
| g_interp g m i r e v1 v2 i1 :
    gram_at (Expr e) i1 -> at_ e i1 ->
    gram_at (Interp g m (NInterp i r (Some e))) ([It g m tok_dollar_curly v1] ++ i1 ++ [E tok_r_curly v2])
(* [Frags true]: what has been read of a path that ends with a text; [Frags false]: with an interpolation *)
| g_frags_first v : gram_at (Frags true (map inl v)) [It false PS_Path tok_path_fragment v]
| g_frags_interp fs n i1 i2 :
    gram_at (Frags true fs) i1 -> gram_at (Interp true PS_Path n) i2 -> gram_at (Frags false (fs ++ [inr n])) (i1 ++ i2)
| g_frags_text fs v i1 :
    gram_at (Frags false fs) i1 ->
    gram_at (Frags true (fs ++ map inl v)) (i1 ++ [It true PS_Path tok_path_fragment v])
| g_frags_end fs i1 :
    gram_at (Frags false fs) i1 -> gram_at (Frags true fs) (i1 ++ [It true PS_Path tok_path_end []])
| g_frags_dollar fs i1 :                                                       (* (!) ${ read as text *)
    strict = false -> gram_at (Frags false fs) i1 ->
    gram_at (Frags true (fs ++ map inl (b "${"))) (i1 ++ [It true PS_Path tok_dollar_curly (b "${")])
(* attribute names and paths *)
| g_name_id i r ii ri v : gram_at (Name (NAttrName i r (NIdent ii ri v))) [E tok_id v]
| g_name_or i r ii ri v : gram_at (Name (NAttrName i r (NIdent ii ri v))) [E tok_kw_or v]
| g_name_string i r n its : gram_at (Str false n) its -> gram_at (Name (NAttrName i r n)) its
| g_name_interp i r n its : gram_at (Interp false PS_Expr n) its -> gram_at (Name (NAttrName i r n)) its
| g_names_nil : gram_at (Names []) []
| g_names_snoc ns n i1 i2 : gram_at (Names ns) i1 -> gram_at (Name n) i2 -> at_ n i2 -> gram_at (Names (ns ++ [n])) (i1 ++ i2)
| g_attrpath_one n its : gram_at (Name n) its -> at_ n its -> gram_at (AttrPath [n]) its
| g_attrpath_dot ns n v i1 i2 :
    gram_at (AttrPath ns) i1 -> gram_at (Name n) i2 -> at_ n i2 -> gram_at (AttrPath (ns ++ [n])) (i1 ++ [E tok_dot v] ++ i2)
(* bindings *)
| g_binding i r ip rp ns ds e eq v1 v2 i1 i2 :
    gram_at (AttrPath ns) i1 -> at_ (NAttrPath ip rp ns ds) i1 -> gram_at (Expr e) i2 -> at_ e i2 ->
    gram_at (Bind (NBinding i r (NAttrPath ip rp ns ds) (Some e) (Some eq)))
         (i1 ++ [E tok_eq v1] ++ i2 ++ [E tok_semi_colon v2])
| g_inherit i r ns v1 v2 i1 :
    gram_at (Names ns) i1 ->
    gram_at (Bind (NInherit i r ns None)) ([E tok_kw_inherit v1] ++ i1 ++ [E tok_semi_colon v2])
| g_inherit_from i r ns e v1 v2 v3 v4 i1 i2 :
    gram_at (Expr e) i1 -> at_ e i1 -> gram_at (Names ns) i2 ->
    gram_at (Bind (NInherit i r ns (Some e)))
         ([E tok_kw_inherit v1; E tok_l_paren v2] ++ i1 ++ [E tok_r_paren v3] ++ i2 ++ [E tok_semi_colon v4])
| g_binds_nil : gram_at (Binds []) []
| g_binds_snoc ns n i1 i2 : gram_at (Binds ns) i1 -> gram_at (Bind n) i2 -> at_ n i2 -> gram_at (Binds (ns ++ [n])) (i1 ++ i2)
| g_binds_none : gram_at (BindsO None) []
| g_binds_some i r ns its : ns <> [] -> gram_at (Binds ns) its -> gram_at (BindsO (Some (NBinds i r ns))) its
(* lambdas *)
| g_default_none : gram_at (Default None) []
| g_default e v i1 : gram_at (Expr e) i1 -> at_ e i1 -> gram_at (Default (Some e)) ([E tok_question v] ++ i1)
| g_formals_nil : gram_at (Formals false []) []
| g_formals_first i r ii ri v d i1 :
    gram_at (Default d) i1 ->
    gram_at (Formals true [NFormal i r None (Some (NIdent ii ri v)) d None]) ([E tok_id v] ++ i1)
| g_formals_next ms i r c ii ri v0 v d i1 i2 :
    gram_at (Formals true ms) i1 -> gram_at (Default d) i2 ->
    gram_at (Formals true (ms ++ [NFormal i r (Some c) (Some (NIdent ii ri v)) d None]))
         (i1 ++ [E tok_comma v0; E tok_id v] ++ i2)
| g_formals_comma i r c ii ri v0 v d i1 :                                       (* (!) leading comma *)
    strict = false -> gram_at (Default d) i1 ->
    gram_at (Formals true [NFormal i r (Some c) (Some (NIdent ii ri v)) d None]) ([E tok_comma v0; E tok_id v] ++ i1)
(* { }, { a, b }, { a, b, }, { a, ... }, { ... } *)
| g_formal_set i r ms dd v1 v2 i1 c :
    gram_at (Formals c ms) i1 -> gram_at (FormalSet (NFormals i r ms dd)) ([E tok_l_curly v1] ++ i1 ++ [E tok_r_curly v2])
| g_formal_set_comma i r ms dd v1 v2 v3 i1 j rj c :
    gram_at (Formals true ms) i1 ->
    gram_at (FormalSet (NFormals i r (ms ++ [NFormal j rj (Some c) None None None]) dd))
         ([E tok_l_curly v1] ++ i1 ++ [E tok_comma v2; E tok_r_curly v3])
| g_formal_set_ell i r ms dd v1 v2 v3 v4 i1 j rj c el :
    gram_at (Formals true ms) i1 ->
    gram_at (FormalSet (NFormals i r (ms ++ [NFormal j rj (Some c) None None (Some el)]) dd))
         ([E tok_l_curly v1] ++ i1 ++ [E tok_comma v2; E tok_ellipsis v3; E tok_r_curly v4])
| g_formal_set_only_ell i r dd v1 v2 v3 j rj el :
    gram_at (FormalSet (NFormals i r [NFormal j rj None None None (Some el)] dd))
         [E tok_l_curly v1; E tok_ellipsis v2; E tok_r_curly v3]
| g_formal_set_odd i r dd v1 v2 v3 j rj c :                                     (* (!) { , } *)
    strict = false ->
    gram_at (FormalSet (NFormals i r [NFormal j rj (Some c) None None None] dd))
         [E tok_l_curly v1; E tok_comma v2; E tok_r_curly v3]
| g_formal_set_odd_ell i r dd v1 v2 v3 v4 j rj c el :                            (* (!) { , ... } *)
    strict = false ->
    gram_at (FormalSet (NFormals i r [NFormal j rj (Some c) None None (Some el)] dd))
         [E tok_l_curly v1; E tok_comma v2; E tok_ellipsis v3; E tok_r_curly v4]
| g_arg_id i r ii ri v : gram_at (Arg (NLambdaArg i r (Some (NIdent ii ri v)) None)) [E tok_id v]
| g_arg_set i r f its : gram_at (FormalSet f) its -> gram_at (Arg (NLambdaArg i r None (Some f))) its
| g_arg_id_set i r ii ri v f v2 i1 :
    gram_at (FormalSet f) i1 ->
    gram_at (Arg (NLambdaArg i r (Some (NIdent ii ri v)) (Some f))) ([E tok_id v; E tok_at v2] ++ i1)
| g_arg_set_id i r ii ri v f v2 i1 :
    gram_at (FormalSet f) i1 ->
    gram_at (Arg (NLambdaArg i r (Some (NIdent ii ri v)) (Some f))) (i1 ++ [E tok_at v2; E tok_id v]).
End Grammar.
(** the grammar alone *)
Notation gram strict := (gram_at strict (fun _ _ => True)).

(** * Where the text of a node is *)
(** [laid tight its t more]: the text [t] is the items in this order, with white space and comments before items that
    are not glued, not before the first one if [tight], and none at the end; [more] is the text that follows [t]. *)
Inductive laid : bool -> list item -> bytes -> bytes -> Prop :=
| laid_nil tight more : laid tight [] [] more
| laid_item tight g m k v its w t more :
    trivia w (v ++ t ++ more) -> (g = true \/ tight = true -> w = []) ->
    spelled m k v \/ (m = PS_Expr /\ odd_token k v) -> longest m k v (t ++ more) ->
    laid false its t more -> laid tight (It g m k v :: its) (w ++ v ++ t) more.
(** the range of [n] is exactly the text of the items [its] *)
Definition spans (src : bytes) (n : node) (its : list item) : Prop :=
  exists a t z, src = a ++ t ++ z /\ List.length a = off (lcur (nrange n)) /\
    List.length (a ++ t) = off (rcur (nrange n)) /\ laid true its t z.

(** * Parts of a tree *)
(** the parts of a node, without punctuation and keywords *)
Definition opt_list (o : option node) : list node := match o with Some n => [n] | None => [] end.
Definition parts_of (n : node) : list node :=
  match n with
  | NInterp _ _ e | NParen _ _ e _ _ => opt_list e
  | NParts _ _ fs => interps fs
  | NString _ _ p | NPath _ _ p | NAttrName _ _ p | NVar _ _ p => [p]
  | NAttrPath _ _ ns _ | NBinds _ _ ns | NList _ _ ns | NFormals _ _ ns _ => ns
  | NBinding _ _ p v _ => p :: opt_list v
  | NInherit _ _ ns e => ns ++ opt_list e
  | NAttrs _ _ body _ _ _ => opt_list body
  | NSelect _ _ e _ p d _ => e :: opt_list p ++ opt_list d
  | NCall _ _ f ns => f :: ns
  | NIf _ _ c t e => opt_list c ++ opt_list t ++ opt_list e
  | NAssert _ _ c e | NWith _ _ _ _ c e | NLet _ _ _ _ c e | NBinOp _ _ _ c e | NHasAttr _ _ _ c e
  | NLambdaArg _ _ c e | NLambda _ _ c e => opt_list c ++ opt_list e
  | NLegacyLet _ _ _ a => opt_list a
  | NUnary _ _ _ e => opt_list e
  | NFormal _ _ _ i d _ => opt_list i ++ opt_list d
  | _ => []
  end.
Inductive within : node -> node -> Prop :=
| within_self n : within n n
| within_part n c m : In c (parts_of n) -> within c m -> within n m.

(** C20: the operands of an operator, if they are operator expressions themselves, are those the table says:
    every operator at the right end of the left operand takes its own right operand before this one comes, and every
    operator at the left end of the right operand takes its own left operand. [but]: exceptions *)
Definition grouped (but : opr -> opr -> Prop) (n : node) : Prop :=
  let closed o l := Forall (fun o1 => closes o1 o \/ but o1 o) (right_edge l) in
  let nested o r := Forall (fun o2 => nests o o2 \/ but o o2) (left_edge r) in
  match n with
  | NBinOp _ _ (NOp _ _ k) (Some l) (Some r) => closed (Bin k) l /\ nested (Bin k) r
  | NUnary _ _ (NOp _ _ k) (Some e) => nested (Pre k) e
  | NHasAttr _ _ _ (Some e) _ => closed Has e
  | _ => True
  end.

(** C21: what is between the quotes of a string, item by item: text stands for itself, an escape for the text
    it denotes, ${...} for its expression. [ind_escape]: what an escape in ''...'' may be read as. *)
Inductive contents (ind_escape : bytes -> bytes -> Prop) (m : pmode) : list item -> list (ascii + node) -> Prop :=
| con_nil : contents ind_escape m [] []
| con_text i fs v : contents ind_escape m i fs ->
    contents ind_escape m (i ++ [It true m tok_string_part v]) (fs ++ map inl v)
| con_escape i fs v u : contents ind_escape m i fs -> escape m v u \/ (m = PS_IndString /\ ind_escape v u) ->
    contents ind_escape m (i ++ [It true m tok_string_escape v]) (fs ++ map inl u)
| con_interp i fs j q e v1 v2 i1 : contents ind_escape m i fs -> gram false (Expr e) i1 ->
    contents ind_escape m (i ++ [It true m tok_dollar_curly v1] ++ i1 ++ [E tok_r_curly v2])
                          (fs ++ [inr (NInterp j q (Some e))]).

(** no diagnostic is an error *)
Definition no_errors (ds : list diag) : Prop :=
  forall d, In d ds -> severity_of (d_kind d) <> DS_Error /\ severity_of (d_kind d) <> DS_Fatal.
