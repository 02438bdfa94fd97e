(** What the rewrites of bindings should preserve (C47, C48, C50, C51), stated on syntax trees.  Nothing of the code of
    the actions is used. *)
From Verif Require Import Base Diag LexModel AstModel GramSpec.

(** An attribute name: a text, or an expression that computes it. *)
Definition key := (bytes + node)%type.
Fixpoint only_text (fs : list (bytes + node)) : option bytes :=
  match fs with
  | [] => Some []
  | inl t :: fs' => match only_text fs' with Some u => Some (t ++ u) | None => None end
  | inr _ :: _ => None
  end.
Definition key_of (n : node) : key :=
  match n with
  | NAttrName _ _ (NIdent _ _ x) => inl x
  | NAttrName _ _ (NString _ _ (NParts _ _ fs)) => match only_text fs with Some x => inl x | None => inr n end
  | _ => inr n
  end.
Definition keys_of (path : node) : list key := match path with NAttrPath _ _ ns _ => map key_of ns | _ => [] end.

(** * The attribute tree *)
(** What a binding defines: the full paths and, at the end of each, an expression that is not itself a (non-empty,
    non-recursive) attribute set.  [a.b = { c = 1; d = x; }] defines [a.b.c] to be 1 and [a.b.d] to be x.  (An inherit
    clause stands for itself.) *)
Fixpoint leaves (n : node) : list (list key * node) :=
  let all := fix all l := match l with [] => [] | m :: l' => leaves m ++ all l' end in
  match n with
  | NBinding _ _ p (Some v) _ =>
      map (fun l => (keys_of p ++ fst l, snd l))
        match v with
        | NAttrs _ _ (Some (NBinds _ _ bs)) None _ _ => all bs
        | _ => [([], v)]
        end
  | _ => [([], n)]
  end.
Definition tree (bs : list node) : list (list key * node) := flat_map leaves bs.

(** the bindings of a document that is an attribute set *)
Definition top (root : node) : list node :=
  match root with NAttrs _ _ (Some (NBinds _ _ bs)) _ _ _ => bs | _ => [] end.
Definition top_rec (root : node) : bool :=
  match root with NAttrs _ _ _ (Some _) _ _ => true | _ => false end.

(** * What an attribute is bound to *)
(** [Around]: the names visible at the attribute set; [Inside]: those, and the attributes of the set itself *)
Inductive scope := Around | Inside.
(** the scope of the expressions of a set: a recursive set and a `let' see their own attributes *)
Definition own (recursive : bool) : scope := if recursive then Inside else Around.
Inductive origin := Named (x : bytes) | Expression (e : node).
(** An expression, without parentheses, as a selection of attributes from something that is not a selection;
    [(a.b).c] and [a.b.c] are the same. *)
Fixpoint selection (e : node) : origin * list key :=
  match e with
  | NParen _ _ (Some e') _ _ => selection e'
  | NSelect _ _ e' _ (Some p) None _ => let (o, ks) := selection e' in (o, ks ++ keys_of p)
  | NVar _ _ (NIdent _ _ x) => (Named x, [])
  | _ => (Expression e, [])
  end.
(** the attribute a binding or an inherit clause defines: its path, the scope in which it is evaluated, and what it is
    ([inherit x] is the variable x around the set; [inherit (e) x] the selection of x from e) *)
Definition bound (recursive : bool) (n : node) : list (list key * (scope * (origin * list key))) :=
  match n with
  | NBinding _ _ p (Some v) _ => [(keys_of p, (own recursive, selection v))]
  | NInherit _ _ ns None =>
      map (fun nm => ([key_of nm], (Around, match key_of nm with inl x => (Named x, []) | inr e => (Expression e, []) end))) ns
  | NInherit _ _ ns (Some e) =>
      map (fun nm => ([key_of nm], (own recursive, let (o, ks) := selection e in (o, ks ++ [key_of nm])))) ns
  | _ => []
  end.
(** the same without the nodes in it, to compare trees of different documents *)
Definition okey (k : key) : option bytes := match k with inl x => Some x | inr _ => None end.
Definition oorigin (o : origin) : option bytes := match o with Named x => Some x | Expression _ => None end.
Definition outline (l : list (list key * (scope * (origin * list key)))) :=
  map (fun '(p, (s, (o, ks))) => (map okey p, s, oorigin o, map okey ks)) l.
(** what the bindings of a document define *)
Definition meaning (root : node) := outline (flat_map (bound (top_rec root)) (top root)).
Definition paths (l : list (list key * node)) : list (list (option bytes)) := map (fun x => map okey (fst x)) l.

(** Expressions that may be followed directly by a dot and an attribute name, so that the name is selected from the
    whole expression: variables, parenthesised expressions, attribute sets, lists; and selections
    from these without default. *)
Definition dottable (e : node) : bool :=
  match e with
  | NVar _ _ _ | NParen _ _ _ _ _ | NAttrs _ _ _ _ _ _ | NList _ _ _ => true
  | _ => false
  end.

(** [reads t bs]: the text [t], whatever follows it, is the text of the bindings [bs] (the grammar and the lexical
    rules are those of C68) *)
Definition reads (t : bytes) (bs : list node) : Prop :=
  exists its, gram false (Binds bs) its /\ forall more, laid true its t more.
