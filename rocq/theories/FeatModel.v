(** Model of the language features computed from the syntax tree alone:
    nixd/lib/Controller/{Convert,Diagnostics,SemanticTokens,DocumentSymbol,FoldingRange}.cpp. *)
From Verif Require Import Base Diag LexModel AstModel SemaModel VlaModel TextModel.

(** Protocol.h:148-150 lspserver::Range *)
Record lrange := LRange { l_start : lpos; l_end : lpos }.

(** Convert.cpp:26-29 toLSPPosition *)
Definition toLSPPosition (src : bytes) (c : cursor) : lpos := offsetToPosition src (off c).
(** Convert.cpp:39-43 toLSPRange *)
Definition toLSPRange (src : bytes) (r : range) : lrange :=
  LRange (toLSPPosition src (lcur r)) (toLSPPosition src (rcur r)).
(** Convert.cpp:31-33 toNixfPosition.  nixf::Position holds int64 numbers, the model natural ones: LSP positions are
    never negative. *)
Definition toNixfPosition (p : lpos) : pos := (Z.to_nat (p_line p), Z.to_nat (p_char p)).
(** Convert.cpp:35-37 toNixfRange *)
Definition toNixfRange (r : lrange) : prange := (toNixfPosition (l_start r), toNixfPosition (l_end r)).

(** The node a request at a position looks at: Hover.cpp, Definition.cpp, FindReferences.cpp, Rename.cpp,
    Completion.cpp and DocumentHighlight.cpp all call AST->descend({Pos, Pos}) with Pos = toNixfPosition(...). *)
Definition nodeAtPosition (root : node) (p : lpos) : res (option node) :=
  descend root (toNixfRange (LRange p p)).

(** ** Publishing diagnostics *)

Scheme Equality for dkind.
(** Diagnostic.cpp.py:10-31 generates Diagnostic::parseKind: a hash map from short names to kinds, built from the list
    of kinds; of two equal names the first is kept *)
Definition parseKind (name : bytes) : option dkind := find (fun k => bytes_eqb (sname_of k) name) all_dkinds.

(** Diagnostics.cpp:19-35 updateSuppressed: the new set of suppressed kinds, as a list; the lock and the log are left
    out *)
Definition updateSuppressed (sup : list bytes) : list dkind :=
  fold_left (fun set name => match parseKind name with Some k => k :: set | None => set end) sup [].
(** Diagnostics.cpp:37-40 isSuppressed *)
Definition isSuppressed (set : list dkind) (k : dkind) : bool := existsb (dkind_beq k) set.

(** Convert.cpp:11-24 getLSPSeverity *)
Definition getLSPSeverity (k : dkind) : nat :=
  match severity_of k with DS_Fatal | DS_Error => 1 | DS_Warning => 2 | DS_Info => 3 | DS_Hint => 4 end.

(** Protocol.h DiagnosticTag *)
Inductive ltag := Unnecessary | Deprecated.
(** Convert.cpp:45-60 toLSPTags *)
Definition toLSPTags (ts : list dtag) : list ltag :=
  map (fun t => match t with Faded => Unnecessary | Striked => Deprecated end) ts.

(** Protocol.h DiagnosticRelatedInformation and Diagnostic, the fields set by publishDiagnostics (source is always
    "nixf", the uri of a related location always the file's) *)
Record related := Related { rel_range : lrange; rel_message : bytes }.
Record ldiag := LDiag { ld_range : lrange; ld_severity : nat; ld_code : bytes; ld_message : bytes;
                        ld_tags : list ltag; ld_related : list related }.

(** decimal notation, std::to_string *)
Definition to_string (n : nat) : bytes := b (DecimalString.NilZero.string_of_uint (Nat.to_uint n)).

(** Diagnostics.cpp:56-68 the message with its fix information *)
Definition withFixInfo (msg : bytes) (nfixes : nat) : bytes :=
  match nfixes with
  | 0 => msg
  | 1 => msg ++ b " (fix available)"
  | _ => msg ++ b " (" ++ to_string nfixes ++ b " fixes available)"
  end.

Fixpoint rmap {A B} (f : A -> res B) (l : list A) : res (list B) :=
  match l with
  | [] => Ok []
  | x :: l' => let* y := f x in let* ys := rmap f l' in Ok (y :: ys)
  end.

(** Diagnostics.cpp:46-115 the body of the loop of publishDiagnostics.  Notes carry no tags: no note is ever given
    one. *)
Definition publishOne (src : bytes) (d : diag) : res (list ldiag) :=
  let* msg := d_format d in
  let* rel := rmap (fun n => let* m := n_format n in Ok (Related (toLSPRange src (n_range n)) m)) (d_notes d) in
  let main := LDiag (toLSPRange src (d_range d)) (getLSPSeverity (d_kind d)) (sname_of (d_kind d))
                    (withFixInfo msg (List.length (d_fixes d))) (toLSPTags (d_tags d)) rel in
  let* notes := rmap (fun n => let* m := n_format n in
                        Ok (LDiag (toLSPRange src (n_range n)) 4 (nsname_of (n_kind n)) m []
                                  [Related (toLSPRange src (d_range d)) (b "original diagnostic")])) (d_notes d) in
  Ok (main :: notes).
(** Diagnostics.cpp:42-121 publishDiagnostics: what is sent *)
Fixpoint publishDiagnostics (set : list dkind) (src : bytes) (ds : list diag) : res (list ldiag) :=
  match ds with
  | [] => Ok []
  | d :: ds' =>
      if isSuppressed set (d_kind d) then publishDiagnostics set src ds'
      else let* x := publishOne src d in let* xs := publishDiagnostics set src ds' in Ok (x ++ xs)
  end.

(** ** Walking the tree *)

Definition ofor {A} (f : node -> list A) (o : option node) : list A := match o with Some m => f m | None => [] end.
Definition ffor {A} (f : node -> list A) (x : bytes + node) : list A := match x with inl _ => [] | inr m => f m end.
(** for (const Node *Ch : AST->children()) f(Ch), null children skipped *)
Definition over_children {A} (f : node -> list A) (n : node) : list A :=
  match n with
  | NMisc _ _ | NIdent _ _ _ | NDot _ _ _ _ | NInt _ _ _ | NFloat _ _ | NSPath _ _ _ | NOp _ _ _ => []
  | NInterp _ _ e => ofor f e
  | NParts _ _ fs => flat_map (ffor f) fs
  | NString _ _ p | NPath _ _ p => f p
  | NParen _ _ e lp rp => ofor f e ++ f lp ++ ofor f rp
  | NVar _ _ i => f i
  | NAttrName _ _ c => f c
  | NAttrPath _ _ names dots => flat_map f names ++ flat_map f dots
  | NBinding _ _ p v q => f p ++ ofor f q ++ ofor f v
  | NInherit _ _ names e => flat_map f names ++ ofor f e
  | NBinds _ _ bs => flat_map f bs
  | NAttrs _ _ body rc _ _ => ofor f body ++ ofor f rc
  | NSelect _ _ e _ p d _ => f e ++ ofor f p ++ ofor f d
  | NCall _ _ fn args => f fn ++ flat_map f args
  | NList _ _ els => flat_map f els
  | NIf _ _ c t e => ofor f c ++ ofor f t ++ ofor f e
  | NAssert _ _ c v => ofor f c ++ ofor f v
  | NLet _ _ kl ki e a => f kl ++ ofor f a ++ ofor f ki ++ ofor f e
  | NLegacyLet _ _ kl a => f kl ++ ofor f a
  | NWith _ _ kw semi w e => f kw ++ ofor f semi ++ ofor f w ++ ofor f e
  | NBinOp _ _ op l r => f op ++ ofor f l ++ ofor f r
  | NHasAttr _ _ _ e p => ofor f e ++ ofor f p
  | NUnary _ _ op e => f op ++ ofor f e
  | NFormal _ _ _ i d ell => match ell with Some m => f m | None => ofor f i ++ ofor f d end
  | NFormals _ _ ms _ => flat_map f ms
  | NLambdaArg _ _ i g => ofor f i ++ ofor f g
  | NLambda _ _ a bd => ofor f a ++ ofor f bd
  end.

(** ** Semantic tokens *)

(** SemanticTokens.cpp:27-41 SemaType, in order *)
Inductive sematype :=
| ST_Function | ST_String | ST_Number | ST_Select | ST_Builtin | ST_Defined | ST_FromWith | ST_Undefined | ST_Null
| ST_Bool | ST_AttrName | ST_LambdaArg | ST_LambdaFormal.
(** SemanticTokens.cpp:43-47 SemaModifiers *)
Definition SM_Builtin := 1.
Definition SM_Deprecated := 2.
Definition SM_Dynamic := 4.

(** SemanticTokens.cpp:49-57 RawSemanticToken *)
Record rawtok := Raw { t_pos : lpos; t_len : nat; t_type : sematype; t_mods : nat }.
(** the wire format: lspserver::SemanticToken *)
Record deltatok := Delta { d_line : nat; d_start : nat; d_len : nat; d_type : sematype; d_mods : nat }.

(** SemanticTokens.cpp:84-87 skip *)
Definition skipTok (n : node) : bool := negb (Nat.eqb (line (nl n)) (line (nr n))).
(** SemanticTokens.cpp:89-91 len *)
Definition lenTok (n : node) : nat := off (nr n) - off (nl n).
(** SemanticTokens.cpp:72-82 add, addImpl *)
Definition addTok (src : bytes) (n : node) (t : sematype) (m : nat) : list rawtok :=
  if skipTok n then [] else [Raw (toLSPPosition src (nl n)) (lenTok n) t m].

Section Tokens.
Variable s : vst.
Variable src : bytes.

(** VariableLookup.h:65 Definition::isBuiltin of a looked up definition *)
Definition defBuiltin (d : nat) : bool :=
  match nth_error (v_defs s) d with Some x => dsource_beq (df_src x) DS_Builtin | None => false end.

(** SemanticTokens.cpp:100-128 dfs(ExprVar) *)
Definition tokVar (n : node) : list rawtok :=
  let x := varName n in
  if bytes_eqb x (b "true") || bytes_eqb x (b "false") then addTok src n ST_Bool SM_Builtin
  else if bytes_eqb x (b "null") then addTok src n ST_Null 0
  else match query s n with
       | Some (Defined d) => if defBuiltin d then addTok src n ST_Builtin SM_Builtin else addTok src n ST_Defined 0
       | Some (FromWith d) =>
           if defBuiltin d then addTok src n ST_Builtin SM_Builtin else addTok src n ST_FromWith SM_Dynamic
       | _ => addTok src n ST_Defined SM_Deprecated
       end.
(** SemanticTokens.cpp:135-144: the names of a select's path *)
Definition tokName (n : node) : list rawtok :=
  match n with NAttrName _ _ (NIdent _ _ _) => addTok src n ST_Select 0 | _ => [] end.
(** SemanticTokens.cpp:166-177 dfs(LambdaArg); [dedup] is walked in the order of its keys *)
Definition tokFormal (ms : list node) (kv : bytes * nat) : list rawtok :=
  match find (fun m => Nat.eqb (nid m) (snd kv)) ms with
  | Some (NFormal _ _ _ (Some i) _ _) => addTok src i ST_LambdaFormal 0
  | _ => []
  end.
Definition tokArg (arg : option node) : list rawtok :=
  match arg with
  | Some (NLambdaArg _ _ i f) =>
      ofor (fun i => addTok src i ST_LambdaArg 0) i ++
      match f with Some (NFormals _ _ ms dd) => flat_map (tokFormal ms) dd | _ => [] end
  | _ => []
  end.
Definition fromInherit (a : attribute) : bool := match a_kind a with AK_Plain => false | _ => true end.

(** SemanticTokens.cpp:93-98, 130-133, 147-164, 179-218 dfs.  An attribute's value is never null. *)
Fixpoint tokens (n : node) : list rawtok :=
  match n with
  | NLambda _ _ arg body => tokArg arg ++ ofor tokens body
  | NString _ _ _ => match string_literal n with Some _ => addTok src n ST_String 0 | None => [] end
  | NVar _ _ _ => tokVar n
  | NSelect _ _ e _ path d _ =>
      tokens e ++ ofor tokens d ++
      match path with Some (NAttrPath _ _ names _) => flat_map tokName names | _ => [] end
  | NAttrs _ _ _ _ st dy =>
      flat_map (fun kv => match snd kv with
                          | (AK_Plain, k, v) => addTok src k ST_AttrName 0 ++ tokens v
                          | _ => [] end) st
      ++ flat_map (fun a => match a with (_, _, v) => tokens v end) dy
  | _ => over_children tokens n
  end.
End Tokens.

(** Protocol.h:152-155 Position::operator< *)
Definition lpos_ltb (p q : lpos) : bool :=
  (p_line p <? p_line q)%Z || ((p_line p =? p_line q)%Z && (p_char p <? p_char q)%Z).
(** std::sort by position: some permutation in non-decreasing order.  The model sorts by insertion; tokens at the
    same position may come in another order in the implementation. *)
Fixpoint insertTok (t : rawtok) (l : list rawtok) : list rawtok :=
  match l with
  | [] => [t]
  | u :: l' => if lpos_ltb (t_pos u) (t_pos t) then u :: insertTok t l' else t :: l
  end.
Definition sortToks (l : list rawtok) : list rawtok := fold_right insertTok [] l.

(** SemanticTokens.cpp:220-235 finish, after the sort; unsigned differences of int64 numbers *)
Definition u32 (z : Z) : nat := Z.to_nat (z mod 4294967296).
Fixpoint encode (prev : lpos) (l : list rawtok) : res (list deltatok) :=
  match l with
  | [] => Ok []
  | t :: l' =>
      if (p_line (t_pos t) - p_line prev <? 0)%Z then Crash "Elm.Pos.line - Prev.line >= 0"
      else
        let dl := u32 (p_line (t_pos t) - p_line prev) in
        let dc := if Nat.eqb dl 0 then u32 (p_char (t_pos t) - p_char prev) else u32 (p_char (t_pos t)) in
        let* r := encode (t_pos t) l' in
        Ok (Delta dl dc (t_len t) (t_type t) (t_mods t) :: r)
  end.
Definition finish (raw : list rawtok) : res (list deltatok) := encode (LPos 0 0) (sortToks raw).

(** SemanticTokens.cpp:240-255 onSemanticTokens, once the tree and the analysis are there *)
Definition semanticTokens (s : vst) (src : bytes) (root : node) : res (list deltatok) := finish (tokens s src root).

(** ** Document symbols *)

(** Protocol.h SymbolKind, the ones used *)
Inductive symkind := SK_String | SK_Number | SK_Property | SK_Variable | SK_Function | SK_Array | SK_Field | SK_Boolean
| SK_Null | SK_Constant | SK_Event.
(** Protocol.h DocumentSymbol *)
Inductive symbol := Symbol (name detail : bytes) (k : symkind) (deprecated : bool) (full sel : lrange) (kids : list symbol).

Section Symbols.
Variable s : vst.
Variable src : bytes.

Definition leaf (name detail : bytes) (k : symkind) (n : node) : list symbol :=
  [Symbol name detail k false (toLSPRange src (nrange n)) (toLSPRange src (nrange n)) []].

(** DocumentSymbol.cpp:26-30 getLambdaName *)
Definition getLambdaName (arg : option node) : bytes :=
  match arg with Some (NLambdaArg _ _ (Some (NIdent _ _ x)) _) => x | _ => b "(anonymous lambda)" end.
(** DocumentSymbol.cpp:32-43 getLambdaSelectionRage; without identifier and formals the assertion fails *)
Definition getLambdaSelectionRange (n : node) (arg : option node) : res lrange :=
  match arg with
  | None => Ok (toLSPRange src (nrange n))
  | Some (NLambdaArg _ _ (Some i) _) => Ok (toLSPRange src (nrange i))
  | Some (NLambdaArg _ _ None (Some f)) => Ok (toLSPRange src (nrange f))
  | _ => Crash "Lambda.arg()->formals()"
  end.
(** DocumentSymbol.cpp:45-50 getAttrRange *)
Definition getAttrRange (key value : node) : lrange :=
  LRange (toLSPPosition src (nl key)) (toLSPPosition src (nr value)).
(** DocumentSymbol.cpp:52-78 richVar *)
Definition richVar (n : node) : symbol :=
  let r := toLSPRange src (nrange n) in
  let x := varName n in
  if bytes_eqb x (b "true") || bytes_eqb x (b "false") then Symbol x (b "builtin boolean") SK_Boolean false r r []
  else if bytes_eqb x (b "null") then Symbol x (b "null") SK_Null false r r []
  else match query s n with
       | Some (Defined d) => Symbol x (b "identifier") (if defBuiltin s d then SK_Event else SK_Constant) false r r []
       | Some (FromWith d) => Symbol x (b "identifier") (if defBuiltin s d then SK_Event else SK_Variable) false r r []
       | _ => Symbol x (b "identifier") SK_Variable true r r []
       end.

Definition intName (v : N) : bytes := b (DecimalString.NilZero.string_of_uint (N.to_uint v)).
(** the loops over several nodes, concatenating and passing a failed assertion on *)
Definition rcat (x y : res (list symbol)) : res (list symbol) := let* a := x in let* c := y in Ok (a ++ c).
Definition rflat {A} (f : A -> res (list symbol)) : list A -> res (list symbol) :=
  fix go l := match l with [] => Ok [] | x :: l' => rcat (f x) (go l') end.
Definition rofor (f : node -> res (list symbol)) (o : option node) : res (list symbol) :=
  match o with Some m => f m | None => Ok [] end.
Definition rover (f : node -> res (list symbol)) (n : node) : res (list symbol) :=
  match n with
  | NMisc _ _ | NIdent _ _ _ | NDot _ _ _ _ | NInt _ _ _ | NFloat _ _ | NSPath _ _ _ | NOp _ _ _ => Ok []
  | NInterp _ _ e => rofor f e
  | NParts _ _ fs => rflat (fun x => match x with inl _ => Ok [] | inr m => f m end) fs
  | NString _ _ p | NPath _ _ p => f p
  | NParen _ _ e lp rp => rcat (rofor f e) (rcat (f lp) (rofor f rp))
  | NVar _ _ i => f i
  | NAttrName _ _ c => f c
  | NAttrPath _ _ names dots => rcat (rflat f names) (rflat f dots)
  | NBinding _ _ p v q => rcat (f p) (rcat (rofor f q) (rofor f v))
  | NInherit _ _ names e => rcat (rflat f names) (rofor f e)
  | NBinds _ _ bs => rflat f bs
  | NAttrs _ _ body rc _ _ => rcat (rofor f body) (rofor f rc)
  | NSelect _ _ e _ p d _ => rcat (f e) (rcat (rofor f p) (rofor f d))
  | NCall _ _ fn args => rcat (f fn) (rflat f args)
  | NList _ _ els => rflat f els
  | NIf _ _ c t e => rcat (rofor f c) (rcat (rofor f t) (rofor f e))
  | NAssert _ _ c v => rcat (rofor f c) (rofor f v)
  | NLet _ _ kl ki e a => rcat (f kl) (rcat (rofor f a) (rcat (rofor f ki) (rofor f e)))
  | NLegacyLet _ _ kl a => rcat (f kl) (rofor f a)
  | NWith _ _ kw semi w e => rcat (f kw) (rcat (rofor f semi) (rcat (rofor f w) (rofor f e)))
  | NBinOp _ _ op l r => rcat (f op) (rcat (rofor f l) (rofor f r))
  | NHasAttr _ _ _ e p => rcat (rofor f e) (rofor f p)
  | NUnary _ _ op e => rcat (f op) (rofor f e)
  | NFormal _ _ _ i d ell => match ell with Some m => f m | None => rcat (rofor f i) (rofor f d) end
  | NFormals _ _ ms _ => rflat f ms
  | NLambdaArg _ _ i g => rcat (rofor f i) (rofor f g)
  | NLambda _ _ a bd => rcat (rofor f a) (rofor f bd)
  end.

Definition attrSymbol (name : bytes) (key value : node) (kids : list symbol) : symbol :=
  Symbol name (b "attribute") SK_Field false (getAttrRange key value) (toLSPRange src (nrange key)) kids.

(** DocumentSymbol.cpp:80-242 collect: the symbols pushed for a node.  The name of a float is left out
    (std::to_string of a double). *)
Fixpoint collect (n : node) : res (list symbol) :=
  match n with
  | NString _ _ _ =>
      Ok (leaf (match string_literal n with Some x => x | None => b "(dynamic string)" end) (b "string") SK_String n)
  | NInt _ _ v => Ok (leaf (intName v) (b "integer") SK_Number n)
  | NFloat _ _ => Ok (leaf [] (b "float") SK_Number n)
  | NAttrName _ _ _ =>
      Ok (leaf (match staticName n with Some x => x | None => b "(dynamic attribute name)" end)
               (b "attribute name") SK_Property n)
  | NVar _ _ _ => Ok [richVar n]
  | NLambda _ _ arg body =>
      let* kids := rofor collect body in
      let* sel := getLambdaSelectionRange n arg in
      Ok [Symbol (getLambdaName arg) (b "lambda") SK_Function false (toLSPRange src (nrange n)) sel kids]
  | NList _ _ els =>
      let* kids := rflat collect els in
      Ok [Symbol (b "{anonymous}") (b "list") SK_Array false (toLSPRange src (nrange n)) (toLSPRange src (nrange n)) kids]
  | NAttrs _ _ _ _ st dy =>
      rcat
        (rflat (fun kv => match kv with (name, (_, k, v)) =>
                  let* kids := collect v in Ok [attrSymbol name k v kids] end) st)
        (rflat (fun a => match a with (_, k, v) =>
                  let* kids := collect v in Ok [attrSymbol (b "${dynamic attribute}") k v kids] end) dy)
  | _ => rover collect n
  end.
End Symbols.

(** ** Folding ranges *)

(** FoldingRange.cpp:27 *)
Definition MaxRecursionDepth := 256.
(** FoldingRange.cpp:30-32 isMultiLine *)
Definition isMultiLine (r : lrange) : bool := (p_line (l_start r) <? p_line (l_end r))%Z.
(** FoldingRange.cpp:34-52 toFoldingRange, addFoldingRange: the four numbers are those of the LSP range *)
Definition addFoldingRange (src : bytes) (n : node) : list lrange :=
  let r := toLSPRange src (nrange n) in if isMultiLine r then [r] else [].

(** FoldingRange.cpp:54-124 collectFoldingRanges; [left] is MaxRecursionDepth - Depth *)
Fixpoint collectFoldingRanges (src : bytes) (left : nat) (n : node) : list lrange :=
  match left with
  | 0 => []
  | S left' =>
      let go := collectFoldingRanges src left' in
      match n with
      | NAttrs _ _ body _ _ _ => addFoldingRange src n ++ ofor (over_children go) body
      | NList _ _ _ => addFoldingRange src n ++ over_children go n
      | NLambda _ _ _ bd => addFoldingRange src n ++ ofor go bd
      | NLet _ _ _ _ e a => addFoldingRange src n ++ ofor go a ++ ofor go e
      | NWith _ _ _ _ w e => addFoldingRange src n ++ ofor go w ++ ofor go e
      | NIf _ _ c t e => addFoldingRange src n ++ ofor go c ++ ofor go t ++ ofor go e
      | NString _ _ _ => addFoldingRange src n
      | _ => over_children go n
      end
  end.
(** FoldingRange.cpp:135-154 onFoldingRange, once the tree is there *)
Definition foldingRanges (src : bytes) (root : node) : list lrange := collectFoldingRanges src MaxRecursionDepth root.
