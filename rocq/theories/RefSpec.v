(** Declarations, what a cursor is on, and what renaming is, stated over the syntax tree and its scopes. *)
From Verif Require Import Base Diag LexModel AstModel ParseSpec NavSpec VlaModel VlaSpec.

(** [declaration primops root sc o x nd]: the program has the construct [o] (a `let`, a `rec` set or a function) in scope
    [sc], which declares [x]; [nd] is the name as it is written there *)
Definition declaration primops (root : node) (sc : scope) (o : node) (x : bytes) (nd : node) : Prop :=
  visit (prelude primops) root sc o /\
  exists who names role, opens o = Some (Binds who names) /\ In (x, (nd, role)) names.

(** [nearest root n k p]: [p] is of kind [k], it is [n] or above it, and nothing in between is of that kind *)
Definition nearest (root n : node) (k : nodekind) (p : node) : Prop :=
  exists l, chain root n l /\ find (fun q => nodekind_beq (kind_of q) k) l = Some p.

(** [on_variable root n v]: a cursor on [n] is on the variable [v]: on a variable that is written out, or on a name of
    an `inherit` clause without source, which stands for a variable *)
Inductive on_variable (root n v : node) : Prop :=
| on_written : nearest root n NK_ExprVar v -> on_variable root n v
| on_inherited inh a x i r bd rc st dy at_ :
    nearest root n NK_Inherit inh -> (exists j q names, inh = NInherit j q names None) ->
    nearest root n NK_AttrName a -> staticName a = Some x ->
    nearest root inh NK_ExprAttrs (NAttrs i r bd rc st dy) -> In (x, at_) st -> a_value at_ = v ->
    on_variable root n v.
(** [on_name root n nd]: the cursor is on the name [nd] of a declaration (as an address): on that node, or on what it
    consists of if it is an attribute name *)
Definition on_name (root n nd : node) : Prop :=
  nid nd = nid n \/
  exists p, node_of root p /\ In n (present (children p)) /\ kind_of p = NK_AttrName /\ nid nd = nid p.

(** renaming [x] to [y] in a layer *)
Definition renamed_name (x y z : bytes) : bytes := if bytes_eqb z x then y else z.
Definition renamed_layer (x y : bytes) (l : layer) : layer :=
  match l with
  | Binds who names => Binds who (map (fun p => (renamed_name x y (fst p), snd p)) names)
  | _ => l
  end.

(** the tokens that stand for definitions are told apart: the keyword of a `with` expression is neither the keyword of
    another one nor the name of a declaration *)
Definition marked primops (root : node) : Prop :=
  forall i r kw semi we e, node_of root (NWith i r kw semi we e) ->
    (forall sc' i' r' kw' semi' we' e', visit (prelude primops) root sc' (NWith i' r' kw' semi' we' e') ->
       nid kw' = nid kw -> NWith i' r' kw' semi' we' e' = NWith i r kw semi we e) /\
    (forall sc' o x nd, declaration primops root sc' o x nd -> nid nd <> nid kw).

(** [binds_names l names]: [l] is the layer of a construct that binds exactly these names *)
Definition binds_names (l : layer) (names : list bytes) : Prop :=
  (exists who fields, l = Binds who fields) /\ forall x, declares l x <-> In x names.

(** [within nd top]: [nd] is written inside [top] *)
Definition within (nd top : node) : Prop :=
  off (nl top) <= off (nl nd) /\ off (nr nd) <= off (nr top).
(** [outside top sc x]: the name [x], used in scope [sc], comes from outside of [top]: the name that declares it is
    not written in [top], or it can only come from a `with` *)
Definition outside (top : node) (sc : scope) (x : bytes) : Prop :=
  (exists who names t nd role, bound sc x (Binds who names :: t) /\ In (x, (nd, role)) names /\ ~ within nd top) \/
  (unbound sc x /\ withs sc <> []).

(** a document after several edits, the last in the document first *)
Definition apply_edits (src : bytes) (es : list tedit) : bytes := fold_left apply_edit es src.
