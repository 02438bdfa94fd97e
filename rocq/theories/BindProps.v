(** Properties C47, C48, C50 and C51: the rewrites of bindings. *)
From Verif Require Import Base Diag LexModel LexSpec LexProofs LexLongSpec AstModel SemaModel PSupModel ParseModel ActModel ActSpec NavModel ConnModel ReadTools GramSpec GramProofs GramFacts BindModel BindSpec BindLaid BindText BindKey BindProofs BindFacts.

(** ** C47: flattening keeps the contents.
    For a binding [m] of a document without errors, the text that replaces it consists of bindings (by the grammar and
    the lexical rules of C68) that define the same paths with the same values, in the same order ([tree], BindSpec).
    Missing: documents with errors; that the document as a whole, with the text replaced, is read as before. *)
Theorem C47_partial : forall src root m e, parse src = Ok (Some root, []) -> within root m ->
  flattenAttrs src m = Ok (Some e) ->
  e_range e = nrange m /\ exists bs, reads (e_text e) bs /\ tree bs = leaves m.
Proof. exact C47_partial_proof. Qed.
Print Assumptions C47_partial.


Example C47_nonvacuous : exists src root m e, parse src = Ok (Some root, []) /\ within root m /\
  flattenAttrs src m = Ok (Some e) /\ e_text e = b "a.b.c = 1; a.b.d.e = [ x ];".
Proof. exists (b "{ z = 0; a.b = { c = 1; d.e = [ x ]; }; }"). apply (flat_text_ok 1). vm_compute. reflexivity. Qed.

(** ** C48: packing keeps the set.
    False: the edit of the shallow and of the recursive action replaces everything from the first to the last binding
    with the same first name, so that the bindings between are deleted. *)
Theorem C48_refuted : exists src root m e root', parse src = Ok (Some root, []) /\ packs src root m e /\
  parse (splice src (e_range e) (e_text e)) = Ok (Some root', []) /\
  In [Some (b "x")] (paths (tree (top root))) /\ ~ In [Some (b "x")] (paths (tree (top root'))).
Proof. exact C48_refuted_proof. Qed.
Print Assumptions C48_refuted.
(** The shallow action puts a binding of the name itself into the set: a new path [a.a.x] appears, [a.x] is gone. *)
Theorem C48_itself_refuted : exists src root m e root', parse src = Ok (Some root, []) /\ packs src root m e /\
  parse (splice src (e_range e) (e_text e)) = Ok (Some root', []) /\
  In [Some (b "a"); Some (b "a"); Some (b "x")] (paths (tree (top root'))) /\
  ~ In [Some (b "a"); Some (b "a"); Some (b "x")] (paths (tree (top root))).
Proof. exact C48_itself_refuted_proof. Qed.
Print Assumptions C48_itself_refuted.
(** The recursive action writes the sets it finds on the way anew: without `rec', and with the variable x for an
    attribute x inherited from another set. *)
Theorem C48_rec_refuted : exists src root m e, parse src = Ok (Some root, []) /\ packs src root m e /\
  src = b "{ a.b = rec { x = 1; y = x; }; a.c = 2; }" /\
  splice src (e_range e) (e_text e) = b "{ a = { b = { x = 1; y = x; }; c = 2; }; }".
Proof. exact C48_rec_refuted_proof. Qed.
Print Assumptions C48_rec_refuted.
Theorem C48_inherit_refuted : exists src root m e, parse src = Ok (Some root, []) /\ packs src root m e /\
  src = b "{ a.b = { inherit (s) x; }; a.c = 2; }" /\
  splice src (e_range e) (e_text e) = b "{ a = { b = { x = x; }; c = 2; }; }".
Proof. exact C48_inherit_refuted_proof. Qed.
Print Assumptions C48_inherit_refuted.

(** ** C50: converting a binding to inherit.
    [bound recursive n] (BindSpec) is what a binding or inherit clause defines: the name, the scope in which it is
    evaluated, and the variable or the selection it stands for; [recursive] says whether the set is one.
    Missing: [x = x] in a recursive set (see below); selections with several names from something that is not a
    variable, a parenthesised expression, a set or a list (see below); documents with errors. *)
Theorem C50_partial : forall src root m e recursive, parse src = Ok (Some root, []) -> within root m ->
  toInherit src m = Some e ->
  (recursive = true -> match m with NBinding _ _ _ (Some (NVar _ _ _)) _ => False | _ => True end) ->
  match m with
  | NBinding _ _ _ (Some (NSelect _ _ from _ (Some (NAttrPath _ _ names _)) _ _)) _ => List.length names > 1 -> dottable from = true
  | _ => True
  end ->
  e_range e = nrange m /\ exists n, reads (e_text e) [n] /\ bound recursive n = bound recursive m.
Proof. exact C50_partial_proof. Qed.
Print Assumptions C50_partial.
Example C50_nonvacuous : exists src root m e, parse src = Ok (Some root, []) /\ In m (top root) /\ toInherit src m = Some e /\
  e_text e = b "inherit (s.""b c"") a;" /\
  match m with
  | NBinding _ _ _ (Some (NSelect _ _ from _ (Some (NAttrPath _ _ names _)) _ _)) _ => List.length names = 2 /\ dottable from = true
  | _ => False
  end.
Proof.
  exists (b "{ a = s.""b c"".a; }").
  assert (T : match inherit_edit 0 (b "{ a = s.""b c"".a; }") with
    | Some (NBinding _ _ _ (Some (NSelect _ _ from _ (Some (NAttrPath _ _ names _)) _ _)) _, e) => bytes_eqb (e_text e) (b "inherit (s.""b c"") a;") && Nat.eqb (List.length names) 2 && dottable from
    | _ => false end = true) by (vm_compute; reflexivity).
  revert T. generalize (b "{ a = s.""b c"".a; }") as src. generalize (b "inherit (s.""b c"") a;") as t. intros t src T.
  destruct (inherit_edit 0 src) as [[m e]|] eqn:E; [|discriminate]. destruct (inherit_edit_ok _ _ _ _ E) as (root & P & I & F). exists root, m, e.
  destruct m; try discriminate T. destruct value as [[]|]; try discriminate T. match type of T with match ?p with _ => _ end = _ => destruct p as [[]|]; try discriminate T end.
  apply andb_true_iff in T as [T T3]. apply andb_true_iff in T as [T1 T2]. apply bytes_eqb_spec in T1. apply Nat.eqb_eq in T2. auto 6.
Qed.
(** In a recursive set [x = x] refers to itself, [inherit x] to what is around. *)
Theorem C50_refuted : exists src root m e root', parse src = Ok (Some root, []) /\ In m (top root) /\ toInherit src m = Some e /\
  parse (splice src (e_range e) (e_text e)) = Ok (Some root', []) /\ meaning root <> meaning root'.
Proof. exact C50_refuted_proof. Qed.
Print Assumptions C50_refuted.
(** A path followed by a dot and a name is another path: [a = ./foo .b.a] becomes [inherit (./foo.b) a]. *)
Theorem C50_path_refuted : exists src root m e root', parse src = Ok (Some root, []) /\ In m (top root) /\ toInherit src m = Some e /\
  parse (splice src (e_range e) (e_text e)) = Ok (Some root', []) /\ meaning root <> meaning root'.
Proof. exact C50_path_refuted_proof. Qed.
Print Assumptions C50_path_refuted.
(** [true = true] becomes [inherit "true"], on which nixd itself crashes. *)
Theorem C50_crash_refuted : exists src root m e why, parse src = Ok (Some root, []) /\ In m (top root) /\ toInherit src m = Some e /\
  parse (splice src (e_range e) (e_text e)) = Crash why.
Proof. exact C50_crash_refuted_proof. Qed.
Print Assumptions C50_crash_refuted.

(** ** C51: converting inherit to a binding.
    Missing: names that are not identifiers; [inherit x] in a recursive set; sources that are not a variable, a
    parenthesised expression, a set, a list or a selection from one of these without default; documents with errors.  All of
    these go wrong, see below.  (Clauses with several names are not offered.) *)
Theorem C51_partial : forall src root m e recursive x, parse src = Ok (Some root, []) -> within root m ->
  toBinding src m = Ok (Some e) ->
  spelled PS_Expr tok_id x ->
  match m with
  | NInherit _ _ names None => map key_of names = [inl x] /\ recursive = false
  | NInherit _ _ names (Some from) => map key_of names = [inl x] /\
      match from with NSelect _ _ _ _ _ None _ => True | _ => dottable from = true end
  | _ => False
  end ->
  e_range e = nrange m /\ exists n, reads (e_text e) [n] /\ bound recursive n = bound recursive m.
Proof. exact C51_partial_proof. Qed.
Print Assumptions C51_partial.
Example C51_nonvacuous : exists src root m e, parse src = Ok (Some root, []) /\ In m (top root) /\ toBinding src m = Ok (Some e) /\
  e_text e = b "x = (f a).b.x;" /\
  match m with NInherit _ _ names (Some (NSelect _ _ _ _ _ None _)) => map key_of names = [inl (b "x")] | _ => False end.
Proof.
  exists (b "{ inherit ((f a).b) x; }").
  assert (T : match binding_edit 0 (b "{ inherit ((f a).b) x; }") with
    | Some (NInherit _ _ names (Some (NSelect _ _ _ _ _ None _)), e) => bytes_eqb (e_text e) (b "x = (f a).b.x;") && match map key_of names with [inl x] => bytes_eqb x (b "x") | _ => false end
    | _ => false end = true) by (vm_compute; reflexivity).
  revert T. generalize (b "{ inherit ((f a).b) x; }") as src. generalize (b "x = (f a).b.x;") as t. intros t src T.
  destruct (binding_edit 0 src) as [[m e]|] eqn:E; [|discriminate]. destruct (binding_edit_ok _ _ _ _ E) as (root & P & I & F). exists root, m, e.
  destruct m; try discriminate T. destruct e0 as [[]|]; try discriminate T. destruct dflt; try discriminate T.
  apply andb_true_iff in T as [T1 T2]. apply bytes_eqb_spec in T1. destruct (map key_of names) as [|[y|] [|]]; try discriminate T2.
  apply bytes_eqb_spec in T2. subst y. auto 6.
Qed.
(** [inherit (a // b) x] becomes [x = a // b.x]; *)
Theorem C51_refuted : exists src root m e root', parse src = Ok (Some root, []) /\ In m (top root) /\ toBinding src m = Ok (Some e) /\
  parse (splice src (e_range e) (e_text e)) = Ok (Some root', []) /\ meaning root <> meaning root'.
Proof. exact C51_refuted_proof. Qed.
Print Assumptions C51_refuted.
(** [inherit (import ./foo.nix) bar] becomes [bar = import ./foo.nix.bar]; *)
Theorem C51_call_refuted : exists src root m e root', parse src = Ok (Some root, []) /\ In m (top root) /\ toBinding src m = Ok (Some e) /\
  parse (splice src (e_range e) (e_text e)) = Ok (Some root', []) /\ meaning root <> meaning root'.
Proof. exact C51_call_refuted_proof. Qed.
Print Assumptions C51_call_refuted.
(** [rec { inherit x; }] becomes [rec { x = x; }]; *)
Theorem C51_rec_refuted : exists src root m e root', parse src = Ok (Some root, []) /\ In m (top root) /\ toBinding src m = Ok (Some e) /\
  parse (splice src (e_range e) (e_text e)) = Ok (Some root', []) /\ meaning root <> meaning root'.
Proof. exact C51_rec_refuted_proof. Qed.
Print Assumptions C51_rec_refuted.
(** and [inherit (s) "a.b"] becomes [a.b = s.a.b]. *)
Theorem C51_name_refuted : exists src root m e root', parse src = Ok (Some root, []) /\ In m (top root) /\ toBinding src m = Ok (Some e) /\
  parse (splice src (e_range e) (e_text e)) = Ok (Some root', []) /\ meaning root <> meaning root'.
Proof. exact C51_name_refuted_proof. Qed.
Print Assumptions C51_name_refuted.
