(** What each parsing function does on the tokens of a term. *)
From Verif Require Import Base Diag LexModel AstModel PSupModel SemaModel ParseModel GramSpec GramFun1 AccSpec AccBase AccSema.
From Coq Require Import Lia.
Local Notation kvs := (list (tkind * bytes)).

Definition hd_ok (f : tkind -> bool) (l : kvs) : Prop := match l with (k, _) :: _ => f k = true | [] => False end.
(** what may follow an expression *)
Definition stopE (k : tkind) : bool :=
  match k with tok_eof | tok_r_paren | tok_semi_colon | tok_kw_then | tok_kw_else | tok_comma | tok_r_curly => true | _ => false end.
Definition simple_start (k : tkind) : bool :=
  match k with
  | tok_uri | tok_id | tok_int | tok_float | tok_spath | tok_dquote | tok_quote2 | tok_path_fragment | tok_l_paren
  | tok_kw_rec | tok_l_curly | tok_l_bracket => true
  | _ => false
  end.
Definition name_start (k : tkind) : bool := match k with tok_id | tok_kw_or | tok_dquote | tok_dollar_curly => true | _ => false end.
Definition fSel (k : tkind) : bool := match k with tok_dot | tok_kw_or => false | _ => true end.
Definition fApp (k : tkind) : bool := fSel k && negb (simple_start k).
Definition not_k (k0 k : tkind) : bool := negb (tkind_beq k k0).
Definition lbp (k : tkind) : nat := match getBP k with Some (x, _) => x | None => 0 end.
Definition rbp (k : tkind) : nat := match getBP k with Some (_, x) => x | None => 0 end.
(** the loop of operators at level [bp] ends before [k] *)
Definition ends (bp : nat) (k : tkind) : bool := if isBinOp k then Nat.ltb (lbp k) bp else not_k tok_question k.
(** an operator at the right end of an operand ends before [k] *)
Definition halts (k : tkind) (o : opr) : bool :=
  match o with Bin k1 => ends (rbp k1) k | Pre k1 => ends (getUnaryBP k1) k | Has => true end.
Definition fOp (ops : list opr) (k : tkind) : bool := fApp k && forallb (halts k) ops.
(** the loop of operators at level [bp] takes the operator *)
Definition enters (bp : nat) (o : opr) : Prop := match o with Bin k => bp < lbp k | _ => True end.

Definition ftok (f : bytes * option tm) : kvs :=
  name_tok (fst f) :: match snd f with Some d => tok_of tok_question :: toks d | None => [] end.
Definition sep (first : bool) : kvs := if first then [] else [tok_of tok_comma].
Fixpoint ftoks (first : bool) (fs : list (bytes * option tm)) (el : bool) : kvs :=
  match fs with
  | [] => if el then sep first ++ [tok_of tok_ellipsis] else []
  | f :: fs' => sep first ++ ftok f ++ ftoks false fs' el
  end.
Definition are_formals fs el (n : node) : Prop :=
  exists jf rf ms ms' dd, n = NFormals jf rf (ms ++ ms') dd /\ Forall2 is_formal fs ms /\ are_ellipsis el ms' /\
    forall x, ~ In x (map fst fs) -> dfind x dd = None.
Definition some_ (R : node -> Prop) (rest : kvs) : option node -> kvs -> Prop := fun o l' => l' = rest /\ exists n, o = Some n /\ R n.
Definition none_ (l : kvs) : option node -> kvs -> Prop := fun o l' => l' = l /\ o = None.
Definition arg_toks bf fs el af : kvs :=
  match bf with Some x => [name_tok x; tok_of tok_at] | None => [] end ++ [tok_of tok_l_curly] ++ ftoks true fs el ++
  [tok_of tok_r_curly] ++ match af with Some x => [tok_of tok_at; name_tok x] | None => [] end.
Definition is_arg bf fs el af (n : node) : Prop :=
  exists i r nx f, n = NLambdaArg i r nx (Some f) /\ are_formals fs el f /\ opt2 is_ident (match bf with Some x => Some x | None => af end) nx.

Inductive spec : nt -> bool -> list tkind -> kvs -> (option node -> kvs -> Prop) -> Prop :=
| sp_expr p y t rest : wf LExpr t -> hd_ok stopE rest -> spec QExpr p y (toks t ++ rest) (some_ (is_tree t) rest)
| sp_op p y bp t rest : wf LOp t -> Forall (enters bp) (l_ops t) -> hd_ok (fOp (r_ops t)) rest -> hd_ok (ends bp) rest ->
    spec (QOp bp) p y (toks t ++ rest) (some_ (is_tree t) rest)
| sp_app p y t rest : wf LApp t -> hd_ok fApp rest -> spec QApp p y (toks t ++ rest) (some_ (is_tree t) rest)
| sp_apploop y fn acc ts rest : Forall (wf LSel) ts -> hd_ok fApp rest ->
    spec (QAppLoop fn acc) true y (flat_map toks ts ++ rest)
      (some_ (fun n => exists ns, Forall2 is_tree ts ns /\ match acc ++ ns with [] => n = fn | l => exists i r, n = NCall i r fn l end) rest)
| sp_sel p y t rest : wf LSel t -> hd_ok fSel rest -> spec QSelect p y (toks t ++ rest) (some_ (is_tree t) rest)
| sp_sel_none p y l : hd_ok (fun k => negb (simple_start k)) l -> spec QSelect p y l (none_ l)
| sp_simple p y t rest : wf LSimple t -> spec QSimple p y (toks t ++ rest) (some_ (is_tree t) rest)
| sp_simple_none p y l : hd_ok (fun k => negb (simple_start k)) l -> spec QSimple p y l (none_ l)
| sp_paren p y e rest : wf LExpr e -> ~ plain e -> spec QParen p y (toks (Paren e) ++ rest) (some_ (is_tree (Paren e)) rest)
| sp_list p y es rest : Forall (wf LSel) es -> spec QList p y (toks (Seq es) ++ rest) (some_ (is_tree (Seq es)) rest)
| sp_listloop p y tok acc es rest : Forall (wf LSel) es ->
    spec (QListLoop tok acc) p y (flat_map toks es ++ tok_of tok_r_bracket :: rest)
      (some_ (fun n => exists ns i r, Forall2 is_tree es ns /\ n = NList i r (acc ++ ns)) rest)
| sp_name p y x rest : spec QAttrName p y (name_tok x :: rest) (some_ (is_name x) rest)
| sp_name_none p y l : hd_ok (fun k => negb (name_start k)) l -> spec QAttrName p y l (none_ l)
| sp_path p y p_ rest : p_ <> [] -> hd_ok (not_k tok_dot) rest -> spec QAttrPath p y (path_toks p_ ++ rest) (some_ (is_path p_) rest)
| sp_path_none p y l : hd_ok (fun k => negb (name_start k)) l -> spec QAttrPath p y l (none_ l)
| sp_pathloop y c ns ds prev p_ rest : hd_ok (not_k tok_dot) rest ->
    spec (QAttrPathLoop c ns ds prev) true y (flat_map (fun x => [tok_of tok_dot; name_tok x]) p_ ++ rest)
      (some_ (fun n => exists i r ns' ds', n = NAttrPath i r (ns ++ ns') ds' /\ Forall2 is_name p_ ns') rest)
| sp_binding p y p_ e rest : p_ <> [] -> wf LExpr e -> spec QBinding p y (btoks (Bnd p_ e) ++ rest) (some_ (is_bind (Bnd p_ e)) rest)
| sp_binding_none p y l : hd_ok (fun k => negb (name_start k)) l -> spec QBinding p y l (none_ l)
| sp_inherit p y from xs rest : wfb (Inh from xs) -> spec QInherit p y (btoks (Inh from xs) ++ rest) (some_ (is_bind (Inh from xs)) rest)
| sp_inherit_none p y l : hd_ok (not_k tok_kw_inherit) l -> spec QInherit p y l (none_ l)
| sp_inheritloop p y tok e ns xs rest : (ns = [] -> xs <> []) ->
    spec (QInheritLoop tok e ns) p y (map name_tok xs ++ tok_of tok_semi_colon :: rest)
      (some_ (fun n => exists ns' i r, n = NInherit i r (ns ++ ns') e /\ Forall2 is_name xs ns') rest)
| sp_binds y bs k v rest : Forall wfb bs -> In k [tok_r_curly; tok_kw_in] -> kmem k y = true ->
    spec QBinds true y (flat_map btoks bs ++ (k, v) :: rest) (fun o l' => l' = (k, v) :: rest /\ are_binds bs o)
| sp_bindsloop y c acc bs k v rest : Forall wfb bs -> In k [tok_r_curly; tok_kw_in] -> kmem k y = true ->
    spec (QBindsLoop c acc) true y (flat_map btoks bs ++ (k, v) :: rest)
      (fun o l' => l' = (k, v) :: rest /\ exists ns, Forall2 is_bind bs ns /\
         match acc ++ ns with [] => o = None | l => exists i r, o = Some (NBinds i r l) end)
| sp_attrs p y r bs rest : wf LSimple (Set_ r bs) -> spec QAttrs p y (toks (Set_ r bs) ++ rest) (some_ (is_tree (Set_ r bs)) rest)
| sp_if p y c t e rest : wf LExpr c -> wf LExpr t -> wf LExpr e -> hd_ok stopE rest ->
    spec QIf p y (toks (If_ c t e) ++ rest) (some_ (is_tree (If_ c t e)) rest)
| sp_assert p y c e rest : wf LExpr c -> wf LExpr e -> hd_ok stopE rest ->
    spec QAssert p y (toks (Assert_ c e) ++ rest) (some_ (is_tree (Assert_ c e)) rest)
| sp_with p y c e rest : wf LExpr c -> wf LExpr e -> hd_ok stopE rest ->
    spec QWith p y (toks (With_ c e) ++ rest) (some_ (is_tree (With_ c e)) rest)
| sp_let p y bs e rest : Forall wfb bs -> NoDup (flat_map defines bs) -> wf LExpr e -> hd_ok stopE rest ->
    spec QLet p y (toks (Let_ bs e) ++ rest) (some_ (is_tree (Let_ bs e)) rest)
| sp_formal p y first f rest : (forall d, snd f = Some d -> wf LExpr d) -> hd_ok (fun k => match k with tok_comma | tok_r_curly => true | _ => false end) rest ->
    spec QFormal p y (sep first ++ ftok f ++ rest) (some_ (fun n => is_formal f n /\ (first = false -> f_comma n <> None)) rest)
| sp_formal_ell p y first rest :
    spec QFormal p y (sep first ++ tok_of tok_ellipsis :: rest) (some_ (fun n => are_ellipsis true [n] /\ (first = false -> f_comma n <> None)) rest)
| sp_formals p y fs el rest : NoDup (map fst fs) -> (forall x d, In (x, Some d) fs -> wf LExpr d) ->
    spec QFormals p y ([tok_of tok_l_curly] ++ ftoks true fs el ++ tok_of tok_r_curly :: rest) (some_ (are_formals fs el) rest)
| sp_formalsloop p y tok fs0 acc fs el rest : Forall2 is_formal fs0 acc -> seps acc -> NoDup (map fst (fs0 ++ fs)) ->
    (forall x d, In (x, Some d) fs -> wf LExpr d) ->
    spec (QFormalsLoop tok acc) p y (ftoks (match acc with [] => true | _ => false end) fs el ++ tok_of tok_r_curly :: rest)
      (some_ (are_formals (fs0 ++ fs) el) rest)
| sp_formalsloop_end p y tok fs acc m rest : Forall2 is_formal fs acc -> seps (acc ++ [m]) -> are_ellipsis true [m] -> NoDup (map fst fs) ->
    spec (QFormalsLoop tok (acc ++ [m])) p y (tok_of tok_r_curly :: rest) (some_ (are_formals fs true) rest)
| sp_arg_id p y x rest : hd_ok (not_k tok_at) rest ->
    spec QLambdaArg p y (name_tok x :: rest) (some_ (fun n => exists i r nx, is_ident x nx /\ n = NLambdaArg i r (Some nx) None) rest)
| sp_arg_set p y bf fs el af rest : NoDup (optlist_ bf ++ optlist_ af ++ map fst fs) -> bf = None \/ af = None ->
    (forall x d, In (x, Some d) fs -> wf LExpr d) -> hd_ok (not_k tok_at) rest ->
    spec QLambdaArg p y (arg_toks bf fs el af ++ rest) (some_ (is_arg bf fs el af) rest)
| sp_lam p y x e rest : wf LExpr e -> hd_ok stopE rest -> spec QLambda p y (toks (Lam x e) ++ rest) (some_ (is_tree (Lam x e)) rest)
| sp_lamset p y bf fs el af e rest : wf LExpr (LamSet bf fs el af e) -> hd_ok stopE rest ->
    spec QLambda p y (toks (LamSet bf fs el af e) ++ rest) (some_ (is_tree (LamSet bf fs el af e)) rest).

Definition post (R : option node -> kvs -> Prop) p y (o : option node) (s' : pst) : Prop :=
  exists l', R o l' /\ At (is_some o || p) y s' l'.
Definition keeps (m : nt -> P (option node)) : Prop :=
  forall q p y l R, spec q p y l R -> forall s, At p y s l -> fw (m q) s (post R p y).
