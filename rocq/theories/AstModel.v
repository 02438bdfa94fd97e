(** Model of the syntax tree: libnixf/include/nixf/Basic/Nodes/*.h, libnixf/src/Basic/Nodes.cpp. *)
From Verif Require Import Base Diag LexModel.

(** Attrs.h:196-203 Attribute::AttributeKind *)
Inductive akind := AK_Plain | AK_Inherit | AK_InheritFrom.

(** The node classes.  Every node carries an identity [id]: the model of its address.  Fields hold exactly what
    the C++ objects hold, in the order of the constructors' parameters, except:
    - a class whose field is asserted non-null has a [node], the others an [option node];
    - [NFloat] does not hold the value (strtof is not modelled; nothing modelled reads it);
    - the [SemaAttrs] of an attribute set (Attrs.h:236-270) is held as its two fields [Static] (a std::map, here a
      list sorted by key) and [Dynamic]; its third field [Recursive] is always [Rec.get()] (SemaActions.cpp:355,
      135, 145) and is not repeated;
    - an [Attribute] (Attrs.h:194-226) is a triple kind, key, value; its value is never null, because
      insertAttr drops null values (SemaActions.cpp:78, 98) and the other creations are of fresh nodes;
    - a [Dot] holds the identities of its neighbours;
    - [Formals::Dedup] maps a name to the identity of a member. *)
Inductive node :=
| NMisc (id : nat) (r : range)                                     (* Basic.h:106-111 *)
| NIdent (id : nat) (r : range) (name : bytes)                     (* Basic.h:114-123 *)
| NDot (id : nat) (r : range) (prev : nat) (next : option nat)     (* Basic.h:126-143 *)
| NInt (id : nat) (r : range) (v : N)                              (* Simple.h:15-24 *)
| NFloat (id : nat) (r : range)                                    (* Simple.h:26-35 *)
| NInterp (id : nat) (r : range) (e : option node)                 (* Simple.h:38-48 *)
| NParts (id : nat) (r : range) (frags : list (bytes + node))      (* Simple.h:50-114 *)
| NString (id : nat) (r : range) (parts : node)                    (* Simple.h:116-141 *)
| NPath (id : nat) (r : range) (parts : node)                      (* Simple.h:143-158 *)
| NSPath (id : nat) (r : range) (text : bytes)                     (* Simple.h:160-170 *)
| NParen (id : nat) (r : range) (e : option node) (lp : node) (rp : option node)   (* Simple.h:172-190 *)
| NVar (id : nat) (r : range) (ident : node)                       (* Simple.h:192-206 *)
| NAttrName (id : nat) (r : range) (c : node)                      (* Attrs.h:10-88; [c] is the ID, String or Interp *)
| NAttrPath (id : nat) (r : range) (names dots : list node)        (* Attrs.h:90-113 *)
| NBinding (id : nat) (r : range) (path : node) (value eq : option node)           (* Attrs.h:115-143 *)
| NInherit (id : nat) (r : range) (names : list node) (e : option node)            (* Attrs.h:145-171 *)
| NBinds (id : nat) (r : range) (bs : list node)                   (* Attrs.h:173-192 *)
| NAttrs (id : nat) (r : range) (body rc : option node)            (* Attrs.h:272-294 *)
         (st : list (bytes * (akind * node * node))) (dy : list (akind * node * node))
| NSelect (id : nat) (r : range) (e : node) (dot path dflt : option node) (desugared : option nat)  (* Expr.h:7-40 *)
| NCall (id : nat) (r : range) (fn : node) (args : list node)      (* Expr.h:43-72 *)
| NList (id : nat) (r : range) (els : list node)                   (* Expr.h:74-93 *)
| NIf (id : nat) (r : range) (c t e : option node)                 (* Expr.h:95-113 *)
| NAssert (id : nat) (r : range) (c v : option node)               (* Expr.h:115-132 *)
| NLet (id : nat) (r : range) (kwlet : node) (kwin e attrs : option node)          (* Expr.h:134-163 *)
| NLegacyLet (id : nat) (r : range) (kwlet : node) (attrs : option node)           (* Expr.h:165-183 *)
| NWith (id : nat) (r : range) (kw : node) (semi w e : option node)                (* Expr.h:185-206 *)
| NOp (id : nat) (r : range) (k : tkind)                           (* Op.h:12-22 *)
| NBinOp (id : nat) (r : range) (op : node) (l rh : option node)   (* Op.h:39-55 *)
| NHasAttr (id : nat) (r : range) (op : node) (e path : option node)               (* Op.h:57-73 *)
| NUnary (id : nat) (r : range) (op : node) (e : option node)      (* Op.h:75-88 *)
| NFormal (id : nat) (r : range) (comma ident dflt ell : option node)              (* Lambda.h:11-49 *)
| NFormals (id : nat) (r : range) (members : list node) (dedup : list (bytes * nat)) (* Lambda.h:58-88 *)
| NLambdaArg (id : nat) (r : range) (ident formals : option node)  (* Lambda.h:90-106 *)
| NLambda (id : nat) (r : range) (arg body : option node).         (* Lambda.h:108-124 *)

Definition attribute := (akind * node * node)%type.
Definition a_kind (a : attribute) : akind := fst (fst a).
Definition a_key (a : attribute) : node := snd (fst a).
Definition a_value (a : attribute) : node := snd a.

(** identity: the node's address *)
Definition nid (n : node) : nat :=
  match n with
  | NMisc i _ | NIdent i _ _ | NDot i _ _ _ | NInt i _ _ | NFloat i _ | NInterp i _ _ | NParts i _ _
  | NString i _ _ | NPath i _ _ | NSPath i _ _ | NParen i _ _ _ _ | NVar i _ _ | NAttrName i _ _
  | NAttrPath i _ _ _ | NBinding i _ _ _ _ | NInherit i _ _ _ | NBinds i _ _ | NAttrs i _ _ _ _ _
  | NSelect i _ _ _ _ _ _ | NCall i _ _ _ | NList i _ _ | NIf i _ _ _ _ | NAssert i _ _ _
  | NLet i _ _ _ _ _ | NLegacyLet i _ _ _ | NWith i _ _ _ _ _ | NOp i _ _ | NBinOp i _ _ _ _
  | NHasAttr i _ _ _ _ | NUnary i _ _ _ | NFormal i _ _ _ _ _ | NFormals i _ _ _ | NLambdaArg i _ _ _
  | NLambda i _ _ _ => i
  end.

(** Basic.h:35 Node::range *)
Definition nrange (n : node) : range :=
  match n with
  | NMisc _ r | NIdent _ r _ | NDot _ r _ _ | NInt _ r _ | NFloat _ r | NInterp _ r _ | NParts _ r _
  | NString _ r _ | NPath _ r _ | NSPath _ r _ | NParen _ r _ _ _ | NVar _ r _ | NAttrName _ r _
  | NAttrPath _ r _ _ | NBinding _ r _ _ _ | NInherit _ r _ _ | NBinds _ r _ | NAttrs _ r _ _ _ _
  | NSelect _ r _ _ _ _ _ | NCall _ r _ _ | NList _ r _ | NIf _ r _ _ _ | NAssert _ r _ _
  | NLet _ r _ _ _ _ | NLegacyLet _ r _ _ | NWith _ r _ _ _ _ | NOp _ r _ | NBinOp _ r _ _ _
  | NHasAttr _ r _ _ _ | NUnary _ r _ _ | NFormal _ r _ _ _ _ | NFormals _ r _ _ | NLambdaArg _ r _ _
  | NLambda _ r _ _ => r
  end.
(** Basic.h:37-38 *)
Definition nl (n : node) : cursor := lcur (nrange n).
Definition nr (n : node) : cursor := rcur (nrange n).

Definition interps (fs : list (bytes + node)) : list node :=
  flat_map (fun f => match f with inl _ => [] | inr n => [n] end) fs.

(** Node::children() of each class; null pointers are kept as [None].
    Basic.h:110,122,136; Simple.h:23,34,47,106,140,157,167,187,205; Attrs.h:75,104,140,162,184,291;
    Expr.h:37,63,85,110,129,160,180,203; Op.h:21,52,70,85; Lambda.h:43,80,103,121. *)
Definition children (n : node) : list (option node) :=
  match n with
  | NMisc _ _ | NIdent _ _ _ | NDot _ _ _ _ | NInt _ _ _ | NFloat _ _ | NSPath _ _ _ | NOp _ _ _ => []
  | NInterp _ _ e => [e]
  | NParts _ _ fs => map Some (interps fs)
  | NString _ _ p | NPath _ _ p => [Some p]
  | NParen _ _ e lp rp => [e; Some lp; rp]
  | NVar _ _ i => [Some i]
  | NAttrName _ _ c => [Some c]
  | NAttrPath _ _ names dots => map Some (names ++ dots)
  | NBinding _ _ p v q => [Some p; q; v]
  | NInherit _ _ names e => map Some names ++ [e]
  | NBinds _ _ bs => map Some bs
  | NAttrs _ _ body rc _ _ => [body; rc]
  | NSelect _ _ e _ p d _ => [Some e; p; d]
  | NCall _ _ fn args => Some fn :: map Some args
  | NList _ _ els => map Some els
  | NIf _ _ c t e => [c; t; e]
  | NAssert _ _ c v => [c; v]
  | NLet _ _ kl ki e a => [Some kl; a; ki; e]
  | NLegacyLet _ _ kl a => [Some kl; a]
  | NWith _ _ kw semi w e => [Some kw; semi; w; e]
  | NBinOp _ _ op l r => [Some op; l; r]
  | NHasAttr _ _ _ e p => [e; p]
  | NUnary _ _ op e => [Some op; e]
  | NFormal _ _ _ i d ell => match ell with Some _ => [ell] | None => [i; d] end
  | NFormals _ _ ms _ => map Some ms
  | NLambdaArg _ _ i f => [i; f]
  | NLambda _ _ a bd => [a; bd]
  end.

(** Node::kind(): libnixf/include/nixf/Basic/NodeKinds.inc *)
Inductive nodekind :=
| NK_Interpolation | NK_InterpolableParts | NK_Misc | NK_Dot | NK_Identifier | NK_AttrName | NK_AttrPath
| NK_Binding | NK_Inherit | NK_Binds | NK_LambdaArg | NK_Formals | NK_Formal | NK_Op
| NK_ExprInt | NK_ExprFloat | NK_ExprVar | NK_ExprString | NK_ExprPath | NK_ExprSPath | NK_ExprParen
| NK_ExprAttrs | NK_ExprSelect | NK_ExprCall | NK_ExprList | NK_ExprLambda | NK_ExprBinOp | NK_ExprUnaryOp
| NK_ExprOpHasAttr | NK_ExprIf | NK_ExprAssert | NK_ExprLet | NK_ExprWith | NK_ExprLegacyLet.
Scheme Equality for nodekind.

Definition kind_of (n : node) : nodekind :=
  match n with
  | NMisc _ _ => NK_Misc | NIdent _ _ _ => NK_Identifier | NDot _ _ _ _ => NK_Dot | NInt _ _ _ => NK_ExprInt
  | NFloat _ _ => NK_ExprFloat | NInterp _ _ _ => NK_Interpolation | NParts _ _ _ => NK_InterpolableParts
  | NString _ _ _ => NK_ExprString | NPath _ _ _ => NK_ExprPath | NSPath _ _ _ => NK_ExprSPath
  | NParen _ _ _ _ _ => NK_ExprParen | NVar _ _ _ => NK_ExprVar | NAttrName _ _ _ => NK_AttrName
  | NAttrPath _ _ _ _ => NK_AttrPath | NBinding _ _ _ _ _ => NK_Binding | NInherit _ _ _ _ => NK_Inherit
  | NBinds _ _ _ => NK_Binds | NAttrs _ _ _ _ _ _ => NK_ExprAttrs | NSelect _ _ _ _ _ _ _ => NK_ExprSelect
  | NCall _ _ _ _ => NK_ExprCall | NList _ _ _ => NK_ExprList | NIf _ _ _ _ _ => NK_ExprIf
  | NAssert _ _ _ _ => NK_ExprAssert | NLet _ _ _ _ _ _ => NK_ExprLet | NLegacyLet _ _ _ _ => NK_ExprLegacyLet
  | NWith _ _ _ _ _ _ => NK_ExprWith | NOp _ _ _ => NK_Op | NBinOp _ _ _ _ _ => NK_ExprBinOp
  | NHasAttr _ _ _ _ _ => NK_ExprOpHasAttr | NUnary _ _ _ _ => NK_ExprUnaryOp
  | NFormal _ _ _ _ _ _ => NK_Formal | NFormals _ _ _ _ => NK_Formals | NLambdaArg _ _ _ _ => NK_LambdaArg
  | NLambda _ _ _ _ => NK_ExprLambda
  end.

(** Basic.h:79-81 Expr::isExpr *)
Definition isExpr (k : nodekind) : bool :=
  match k with
  | NK_ExprInt | NK_ExprFloat | NK_ExprVar | NK_ExprString | NK_ExprPath | NK_ExprSPath | NK_ExprParen
  | NK_ExprAttrs | NK_ExprSelect | NK_ExprCall | NK_ExprList | NK_ExprLambda | NK_ExprBinOp
  | NK_ExprUnaryOp | NK_ExprOpHasAttr | NK_ExprIf | NK_ExprAssert | NK_ExprLet | NK_ExprWith
  | NK_ExprLegacyLet => true
  | _ => false
  end.

(** Basic.h:84-99 Expr::maybeLambda *)
Definition maybeLambda (n : node) : bool :=
  isExpr (kind_of n) &&
  match kind_of n with
  | NK_ExprInt | NK_ExprFloat | NK_ExprAttrs | NK_ExprString | NK_ExprPath => false
  | _ => true
  end.

(** Nodes.cpp:7-31 mergeFragments, called by the constructor of InterpolatedParts (Nodes.cpp:53-56) *)
Definition mergeFragments (fs : list (bytes + node)) : list (bytes + node) :=
  match fs with
  | [] => []
  | _ =>
      if existsb (fun f => match f with inr _ => true | inl _ => false end) fs then fs
      else [inl (flat_map (fun f => match f with inl x => x | inr _ => [] end) fs)]
  end.

(** Simple.h:96-104 InterpolatedParts::isLiteral, literal; Simple.h:130-138 for strings *)
Definition parts_literal (n : node) : option bytes :=
  match n with
  | NParts _ _ [inl x] => Some x
  | _ => None
  end.
Definition string_literal (n : node) : option bytes :=
  match n with
  | NString _ _ p => parts_literal p
  | _ => None
  end.

(** Attrs.h:40-56 AttrName::isStatic and staticName: [Some name] when the name is static. *)
Definition staticName (n : node) : option bytes :=
  match n with
  | NAttrName _ _ (NIdent _ _ x) => Some x
  | NAttrName _ _ (NString _ _ p) => parts_literal p
  | _ => None
  end.
Definition isStatic (n : node) : bool := match staticName n with Some _ => true | None => false end.

(** Basic.h:63-67 Node::src; std::string_view::substr throws when the start is past the end, and a length that
    wraps around takes everything *)
Definition nsrc (src : bytes) (n : node) : res bytes :=
  if Nat.ltb (List.length src) (off (nl n)) then Crash "substr: out of range"
  else
    let len := if Nat.ltb (off (nr n)) (off (nl n)) then List.length src else off (nr n) - off (nl n) in
    Ok (firstn len (skipn (off (nl n)) src)).

(** number of nodes below a node through [children], for the recursion of [descend] *)
Fixpoint nsize (n : node) : nat :=
  let osize o := match o with Some m => nsize m | None => 0 end in
  let lsize := fix lsize l := match l with [] => 0 | m :: l' => nsize m + lsize l' end in
  let fsize := fix fsize l := match l with [] => 0 | inl _ :: l' => fsize l' | inr m :: l' => nsize m + fsize l' end in
  S match n with
  | NMisc _ _ | NIdent _ _ _ | NDot _ _ _ _ | NInt _ _ _ | NFloat _ _ | NSPath _ _ _ | NOp _ _ _ => 0
  | NInterp _ _ e => osize e
  | NParts _ _ fs => fsize fs
  | NString _ _ p | NPath _ _ p => nsize p
  | NParen _ _ e lp rp => osize e + nsize lp + osize rp
  | NVar _ _ i => nsize i
  | NAttrName _ _ c => nsize c
  | NAttrPath _ _ names dots => lsize names + lsize dots
  | NBinding _ _ p v q => nsize p + osize q + osize v
  | NInherit _ _ names e => lsize names + osize e
  | NBinds _ _ bs => lsize bs
  | NAttrs _ _ body rc _ _ => osize body + osize rc
  | NSelect _ _ e _ p d _ => nsize e + osize p + osize d
  | NCall _ _ fn args => nsize fn + lsize args
  | NList _ _ els => lsize els
  | NIf _ _ c t e => osize c + osize t + osize e
  | NAssert _ _ c v => osize c + osize v
  | NLet _ _ kl ki e a => nsize kl + osize a + osize ki + osize e
  | NLegacyLet _ _ kl a => nsize kl + osize a
  | NWith _ _ kw semi w e => nsize kw + osize semi + osize w + osize e
  | NBinOp _ _ op l r => nsize op + osize l + osize r
  | NHasAttr _ _ _ e p => osize e + osize p
  | NUnary _ _ op e => nsize op + osize e
  | NFormal _ _ _ i d ell => osize i + osize d + osize ell
  | NFormals _ _ ms _ => lsize ms
  | NLambdaArg _ _ i f => osize i + osize f
  | NLambda _ _ a bd => osize a + osize bd
  end.

(** Basic.h:49-61 Node::descend, the recursion bounded by [fuel] *)
Fixpoint descend_f (fuel : nat) (n : node) (q : prange) : res (option node) :=
  match fuel with
  | 0 => OutOfFuel
  | S f =>
      if negb (pcontains (prange_of (nrange n)) q) then Ok None
      else
        match find (fun o => match o with Some c => pcontains (prange_of (nrange c)) q | None => false end)
                   (children n) with
        | Some (Some c) => descend_f f c q
        | _ => Ok (Some n)
        end
  end.
Definition descend (n : node) (q : prange) : res (option node) := descend_f (nsize n) n q.
