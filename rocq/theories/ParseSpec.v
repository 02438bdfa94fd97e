(** Specification vocabulary for the parser properties C17-C22 and C61-C63: what it means for a range, a
    diagnostic and a syntax tree to fit a document.  Offsets are counted in bytes. *)
From Verif Require Import Base Diag LexModel LexSpec AstModel.

(** The range lies in the document, its two ends are correct cursors, the start is not after the end. *)
Definition range_in (src : bytes) (r : range) : Prop :=
  cursor_in src (lcur r) /\ cursor_in src (rcur r) /\ off (lcur r) <= off (rcur r).
Definition inside (inner outer : range) : Prop :=
  off (lcur outer) <= off (lcur inner) /\ off (rcur inner) <= off (rcur outer).
(** The two ranges do not overlap (they may touch). *)
Definition apart (r1 r2 : range) : Prop :=
  off (rcur r1) <= off (lcur r2) \/ off (rcur r2) <= off (lcur r1).

(** The text of a range. *)
Definition text_of (src : bytes) (r : range) : bytes := slice src (off (lcur r)) (off (rcur r)).

(** An edit changes something; the edits of a fix do not overlap. *)
Definition edit_clean (src : bytes) (e : tedit) : Prop :=
  range_in src (e_range e) /\ (e_text e <> [] \/ off (lcur (e_range e)) < off (rcur (e_range e))).
Definition fix_clean (src : bytes) (f : fix_) : Prop :=
  Forall (edit_clean src) (f_edits f) /\
  ForallOrdPairs (fun e1 e2 => apart (e_range e1) (e_range e2)) (f_edits f).
Definition diag_clean (src : bytes) (d : diag) : Prop :=
  range_in src (d_range d) /\
  Forall (fun n => range_in src (n_range n)) (d_notes d) /\
  Forall (fix_clean src) (d_fixes d).

(** The nodes of a tree: a node, its children (null ones left out), and so on. *)
Definition present (l : list (option node)) : list node :=
  flat_map (fun o => match o with Some n => [n] | None => [] end) l.
Inductive node_of : node -> node -> Prop :=
| node_self n : node_of n n
| node_child n c m : In c (present (children n)) -> node_of c m -> node_of n m.

(** The tree that is claimed to be nested: the children, except that the `let' keyword is a child both of the let
    expression and of its attribute set (ParseExpr.cpp:265, 353), and is counted once at most. *)
Definition optlist (o : option node) : list node := match o with Some n => [n] | None => [] end.
Definition proper (n : node) : list node :=
  match n with
  | NAttrs _ _ body _ _ _ => optlist body
  | NLegacyLet _ _ _ a => optlist a
  | _ => present (children n)
  end.
Fixpoint nodes (n : node) : list node :=
  let on o := match o with Some m => nodes m | None => [] end in
  let ln := fix ln l := match l with [] => [] | m :: l' => nodes m ++ ln l' end in
  let fn := fix fn l := match l with [] => [] | inl _ :: l' => fn l' | inr m :: l' => nodes m ++ fn l' end in
  n :: match n with
  | NMisc _ _ | NIdent _ _ _ | NDot _ _ _ _ | NInt _ _ _ | NFloat _ _ | NSPath _ _ _ | NOp _ _ _ => []
  | NInterp _ _ e => on e
  | NParts _ _ fs => fn fs
  | NString _ _ p | NPath _ _ p => nodes p
  | NParen _ _ e lp rp => on e ++ nodes lp ++ on rp
  | NVar _ _ i => nodes i
  | NAttrName _ _ c => nodes c
  | NAttrPath _ _ names dots => ln names ++ ln dots
  | NBinding _ _ p v q => nodes p ++ on q ++ on v
  | NInherit _ _ names e => ln names ++ on e
  | NBinds _ _ bs => ln bs
  | NAttrs _ _ body _ _ _ => on body
  | NSelect _ _ e _ p d _ => nodes e ++ on p ++ on d
  | NCall _ _ fn args => nodes fn ++ ln args
  | NList _ _ els => ln els
  | NIf _ _ c t e => on c ++ on t ++ on e
  | NAssert _ _ c v => on c ++ on v
  | NLet _ _ kl ki e a => nodes kl ++ on a ++ on ki ++ on e
  | NLegacyLet _ _ _ a => on a
  | NWith _ _ kw semi w e => nodes kw ++ on semi ++ on w ++ on e
  | NBinOp _ _ op l r => nodes op ++ on l ++ on r
  | NHasAttr _ _ _ e p => on e ++ on p
  | NUnary _ _ op e => nodes op ++ on e
  | NFormal _ _ _ i d ell => match ell with Some m => nodes m | None => on i ++ on d end
  | NFormals _ _ ms _ => ln ms
  | NLambdaArg _ _ i f => on i ++ on f
  | NLambda _ _ a bd => on a ++ on bd
  end.

(** Everything a tree refers to: besides the children, the attribute names and values of the analysed attribute
    sets (desugared `inherit's among them), and the tokens that are not children. *)
Definition fields (n : node) : list node :=
  present (children n) ++
  match n with
  | NAttrs _ _ _ _ st dy =>
      map (fun kv => a_key (snd kv)) st ++ map (fun kv => a_value (snd kv)) st ++ map a_key dy ++ map a_value dy
  | NSelect _ _ _ dot _ _ _ => optlist dot
  | NHasAttr _ _ op _ _ => [op]
  | NFormal _ _ c i d _ => optlist c ++ optlist i ++ optlist d
  | _ => []
  end.
Inductive within : node -> node -> Prop :=
| within_self n : within n n
| within_field n c m : In c (fields n) -> within c m -> within n m.

(** [text] is the message with its k-th placeholder replaced by the k-th argument, and no argument is left. *)
Inductive fills : bytes -> list bytes -> bytes -> Prop :=
| fills_nil : fills [] [] []
| fills_hole msg a args text : fills msg args text -> fills (b "{}" ++ msg) (a :: args) (a ++ text)
| fills_char c msg args text :
    ~ (c = "{"%char /\ exists msg', msg = "}"%char :: msg') -> fills msg args text -> fills (c :: msg) args (c :: text).
