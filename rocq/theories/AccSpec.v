(** Specification for C75: a large part of the Nix language (no strings, paths, URIs or interpolations) as terms, the
    tokens a term is written with, which terms are well formed, and which tree a term is.  The parser is not used. *)
From Verif Require Import Base Diag LexModel AstModel GramSpec.

Inductive tm :=
| Var (x : bytes) | Num (v : bytes) | Flt (v : bytes) | SPath (t : bytes)
| Paren (e : tm) | Seq (es : list tm)
| Set_ (recursive : bool) (bs : list bnd)
| Get (e : tm) (p : list bytes) (default : option tm)            (* e.p or d *)
| Call (f : tm) (args : list tm)
| Un (k : tkind) (e : tm) | Bi (k : tkind) (l r : tm) | HasP (e : tm) (p : list bytes)
| If_ (c t e : tm) | Assert_ (c e : tm) | With_ (c e : tm) | Let_ (bs : list bnd) (e : tm)
| Lam (x : bytes) (e : tm)                                       (* x: e *)
| LamSet (before : option bytes) (fs : list (bytes * option tm)) (ellipsis : bool) (after : option bytes) (e : tm)
                                                                 (* x@{ a, b ? d, ... }: e   { .. }@x: e *)
with bnd :=
| Bnd (p : list bytes) (e : tm)
| Inh (from : option tm) (xs : list bytes).

(** * How a term is written *)
Definition tok_of (k : tkind) : tkind * bytes := (k, spelling k).
Definition name_tok (x : bytes) : tkind * bytes := (tok_id, x).
(** a.b.c *)
Fixpoint path_toks (p : list bytes) : list (tkind * bytes) :=
  match p with
  | [] => []
  | [x] => [name_tok x]
  | x :: p' => name_tok x :: tok_of tok_dot :: path_toks p'
  end.
(** the parts of a list with commas in between *)
Fixpoint commas (l : list (list (tkind * bytes))) : list (tkind * bytes) :=
  match l with
  | [] => []
  | [x] => x
  | x :: l' => x ++ tok_of tok_comma :: commas l'
  end.

Fixpoint toks (t : tm) : list (tkind * bytes) :=
  match t with
  | Var x => [name_tok x]
  | Num v => [(tok_int, v)]
  | Flt v => [(tok_float, v)]
  | SPath u => [(tok_spath, b "<" ++ u ++ b ">")]
  | Paren e => [tok_of tok_l_paren] ++ toks e ++ [tok_of tok_r_paren]
  | Seq es => [tok_of tok_l_bracket] ++ flat_map toks es ++ [tok_of tok_r_bracket]
  | Set_ r bs => (if r then [tok_of tok_kw_rec] else []) ++ [tok_of tok_l_curly] ++ flat_map btoks bs ++ [tok_of tok_r_curly]
  | Get e p d => toks e ++ [tok_of tok_dot] ++ path_toks p ++
                 match d with Some d => tok_of tok_kw_or :: toks d | None => [] end
  | Call f args => toks f ++ flat_map toks args
  | Un k e => tok_of k :: toks e
  | Bi k l r => toks l ++ [tok_of k] ++ toks r
  | HasP e p => toks e ++ [tok_of tok_question] ++ path_toks p
  | If_ c t e => [tok_of tok_kw_if] ++ toks c ++ [tok_of tok_kw_then] ++ toks t ++ [tok_of tok_kw_else] ++ toks e
  | Assert_ c e => [tok_of tok_kw_assert] ++ toks c ++ [tok_of tok_semi_colon] ++ toks e
  | With_ c e => [tok_of tok_kw_with] ++ toks c ++ [tok_of tok_semi_colon] ++ toks e
  | Let_ bs e => [tok_of tok_kw_let] ++ flat_map btoks bs ++ [tok_of tok_kw_in] ++ toks e
  | Lam x e => [name_tok x; tok_of tok_colon] ++ toks e
  | LamSet bf fs el af e =>
      match bf with Some x => [name_tok x; tok_of tok_at] | None => [] end ++
      [tok_of tok_l_curly] ++
      commas (map (fun f => name_tok (fst f) :: match snd f with Some d => tok_of tok_question :: toks d | None => [] end) fs
              ++ (if el then [[tok_of tok_ellipsis]] else [])) ++
      [tok_of tok_r_curly] ++
      match af with Some x => [tok_of tok_at; name_tok x] | None => [] end ++ [tok_of tok_colon] ++ toks e
  end
with btoks (d : bnd) : list (tkind * bytes) :=
  match d with
  | Bnd p e => path_toks p ++ [tok_of tok_eq] ++ toks e ++ [tok_of tok_semi_colon]
  | Inh from xs => [tok_of tok_kw_inherit] ++
                   match from with Some e => [tok_of tok_l_paren] ++ toks e ++ [tok_of tok_r_paren] | None => [] end ++
                   map name_tok xs ++ [tok_of tok_semi_colon]
  end.

(** * Well formed terms *)
(** where a term may stand: as part of a selection, in a list or as an argument, as an operand, as an operator
    expression, anywhere *)
Inductive level := LSimple | LSel | LApp | LOp | LExpr.
(** the operators at the ends of an operator expression (as [right_edge] and [left_edge] of GramSpec) *)
Fixpoint r_ops (t : tm) : list opr :=
  match t with
  | Bi k _ r => Bin k :: r_ops r
  | Un k e => Pre k :: r_ops e
  | HasP _ _ => [Has]
  | _ => []
  end.
Fixpoint l_ops (t : tm) : list opr :=
  match t with
  | Bi k l _ => Bin k :: l_ops l
  | HasP e _ => Has :: l_ops e
  | _ => []
  end.
(** the names a binding defines at the top *)
Definition defines (d : bnd) : list bytes :=
  match d with Bnd p _ => firstn 1 p | Inh _ xs => xs end.
(** parentheses around these are reported as redundant *)
Definition plain (t : tm) : Prop :=
  match t with Var _ | Num _ | Flt _ | SPath _ | Paren _ | Seq _ | Set_ _ _ => True | _ => False end.
Definition optlist_ {A} (o : option A) : list A := match o with Some x => [x] | None => [] end.
(** nixd does not accept a number or a set as a function *)
Definition callable (t : tm) : Prop :=
  match t with Num _ | Flt _ | Set_ _ _ => False | _ => True end.

Inductive wf : level -> tm -> Prop :=
| wf_var x : wf LSimple (Var x)
| wf_num v n : numeral v n -> (n < 2 ^ 63)%N -> wf LSimple (Num v)
| wf_flt v : wf LSimple (Flt v)
| wf_spath u : wf LSimple (SPath u)
| wf_paren e : wf LExpr e -> ~ plain e -> wf LSimple (Paren e)
| wf_seq es : Forall (wf LSel) es -> wf LSimple (Seq es)
| wf_set r bs : Forall wfb bs -> NoDup (flat_map defines bs) -> wf LSimple (Set_ r bs)
| wf_simple t : wf LSimple t -> wf LSel t
| wf_get e p d : wf LSimple e -> p <> [] -> (forall x, d = Some x -> wf LSel x) -> wf LSel (Get e p d)
| wf_sel t : wf LSel t -> wf LApp t
| wf_call f args : wf LSel f -> callable f -> args <> [] -> Forall (wf LSel) args -> wf LApp (Call f args)
| wf_app t : wf LApp t -> wf LOp t
(* every operator takes the operands the table of precedences gives it, and nixd follows the table *)
| wf_un k e : In k [tok_op_not; tok_op_negate] -> wf LOp e ->
    Forall (fun o => nests (Pre k) o /\ ~ misgrouped (Pre k) o) (l_ops e) -> wf LOp (Un k e)
| wf_bi k l r : In k binops -> wf LOp l -> wf LOp r ->
    Forall (fun o => closes o (Bin k) /\ ~ misgrouped o (Bin k)) (r_ops l) ->
    Forall (fun o => nests (Bin k) o /\ ~ misgrouped (Bin k) o) (l_ops r) -> wf LOp (Bi k l r)
| wf_has e p : wf LOp e -> p <> [] -> Forall (fun o => closes o Has /\ ~ misgrouped o Has) (r_ops e) -> wf LOp (HasP e p)
| wf_op t : wf LOp t -> wf LExpr t
| wf_if c t e : wf LExpr c -> wf LExpr t -> wf LExpr e -> wf LExpr (If_ c t e)
| wf_assert c e : wf LExpr c -> wf LExpr e -> wf LExpr (Assert_ c e)
| wf_with c e : wf LExpr c -> wf LExpr e -> wf LExpr (With_ c e)
| wf_let bs e : Forall wfb bs -> NoDup (flat_map defines bs) -> wf LExpr e -> wf LExpr (Let_ bs e)
| wf_lam x e : wf LExpr e -> wf LExpr (Lam x e)
| wf_lamset bf fs el af e :
    NoDup (optlist_ bf ++ optlist_ af ++ map fst fs) -> bf = None \/ af = None ->
    (forall x d, In (x, Some d) fs -> wf LExpr d) ->
    wf LExpr e -> wf LExpr (LamSet bf fs el af e)
with wfb : bnd -> Prop :=
| wfb_bnd p e : p <> [] -> wf LExpr e -> wfb (Bnd p e)
| wfb_inh from xs : (forall e, from = Some e -> wf LExpr e) -> xs <> [] -> wfb (Inh from xs).

(** * Which tree a term is *)
Definition is_name (x : bytes) (n : node) : Prop := exists i r j q, n = NAttrName i r (NIdent j q x).
Definition is_ident (x : bytes) (n : node) : Prop := exists i r, n = NIdent i r x.
Definition is_path (p : list bytes) (n : node) : Prop := exists i r ns ds, n = NAttrPath i r ns ds /\ Forall2 is_name p ns.
Inductive opt2 {A B} (R : A -> B -> Prop) : option A -> option B -> Prop :=
| opt2_none : opt2 R None None
| opt2_some x y : R x y -> opt2 R (Some x) (Some y).

Inductive is_tree : tm -> node -> Prop :=
| t_var x i r n : is_ident x n -> is_tree (Var x) (NVar i r n)
| t_num v k i r : numeral v k -> is_tree (Num v) (NInt i r k)
| t_flt v i r : is_tree (Flt v) (NFloat i r)
| t_spath u i r : is_tree (SPath u) (NSPath i r u)
| t_paren e n i r lp rp : is_tree e n -> is_tree (Paren e) (NParen i r (Some n) lp (Some rp))
| t_seq es ns i r : Forall2 is_tree es ns -> is_tree (Seq es) (NList i r ns)
| t_set rc bs i r body rn st dy : are_binds bs body -> (rc = true <-> rn <> None) -> is_tree (Set_ rc bs) (NAttrs i r body rn st dy)
| t_get e p d n i r dot pn dn : is_tree e n -> is_path p pn -> opt2 is_tree d dn ->
    is_tree (Get e p d) (NSelect i r n (Some dot) (Some pn) dn None)
| t_call f args i r n ns : is_tree f n -> Forall2 is_tree args ns -> is_tree (Call f args) (NCall i r n ns)
| t_un k e n i r io ro : is_tree e n -> is_tree (Un k e) (NUnary i r (NOp io ro k) (Some n))
| t_bi k x y n m i r io ro : is_tree x n -> is_tree y m -> is_tree (Bi k x y) (NBinOp i r (NOp io ro k) (Some n) (Some m))
| t_has e p n pn i r io ro : is_tree e n -> is_path p pn ->
    is_tree (HasP e p) (NHasAttr i r (NOp io ro tok_question) (Some n) (Some pn))
| t_if c t e nc nt ne i r : is_tree c nc -> is_tree t nt -> is_tree e ne ->
    is_tree (If_ c t e) (NIf i r (Some nc) (Some nt) (Some ne))
| t_assert c e nc ne i r : is_tree c nc -> is_tree e ne -> is_tree (Assert_ c e) (NAssert i r (Some nc) (Some ne))
| t_with c e nc ne i r kw semi : is_tree c nc -> is_tree e ne ->
    is_tree (With_ c e) (NWith i r kw (Some semi) (Some nc) (Some ne))
| t_let_none e ne i r kl ki : is_tree e ne -> is_tree (Let_ [] e) (NLet i r kl (Some ki) (Some ne) None)
| t_let bs e ne i r kl ki ia ra body rn st dy : bs <> [] -> is_tree e ne -> are_binds bs body ->
    is_tree (Let_ bs e) (NLet i r kl (Some ki) (Some ne) (Some (NAttrs ia ra body (Some rn) st dy)))
| t_lam x e i r ia ra nx ne : is_ident x nx -> is_tree e ne ->
    is_tree (Lam x e) (NLambda i r (Some (NLambdaArg ia ra (Some nx) None)) (Some ne))
| t_lamset bf fs el af e i r ia ra nx jf rf ms ms' dd ne :
    opt2 is_ident (match bf with Some x => Some x | None => af end) nx ->
    Forall2 is_formal fs ms -> are_ellipsis el ms' -> is_tree e ne ->
    is_tree (LamSet bf fs el af e) (NLambda i r (Some (NLambdaArg ia ra nx (Some (NFormals jf rf (ms ++ ms') dd)))) (Some ne))
with are_binds : list bnd -> option node -> Prop :=
| ab_none : are_binds [] None
| ab_some bs i r ns : bs <> [] -> Forall2 is_bind bs ns -> are_binds bs (Some (NBinds i r ns))
with is_bind : bnd -> node -> Prop :=
| b_bnd p e pn ne i r eq : is_path p pn -> is_tree e ne -> is_bind (Bnd p e) (NBinding i r pn (Some ne) (Some eq))
| b_inh from xs fn ns i r : opt2 is_tree from fn -> Forall2 is_name xs ns -> is_bind (Inh from xs) (NInherit i r ns fn)
with is_formal : bytes * option tm -> node -> Prop :=
| f_formal_ x d i r c nx dn : is_ident x nx -> opt2 is_tree d dn -> is_formal (x, d) (NFormal i r c (Some nx) dn None)
with are_ellipsis : bool -> list node -> Prop :=
| e_no : are_ellipsis false []
| e_yes i r c el : are_ellipsis true [NFormal i r c None None (Some el)].
