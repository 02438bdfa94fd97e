(** Properties C73, C22, C62 and C74: in a parsed document, nodes, parents and scopes are told apart; the variable analysis
    completes on it, and its reports point inside the document and their messages are complete. *)
From Verif Require Import Base Diag LexModel AstModel PSupModel SemaModel ParseModel ParseSpec ParseProofs NavModel NavSpec NavProofs NavFacts VlaModel VlaSpec VlaPost VlaBase VlaThms VlaFacts RefSpec IdSpec IdProofs VlaClean VlaTotal IdFacts.

(** ** C73: what the analyses rely on.
    The analyses keep their results in maps from the address of a node ([nid]).  [node_of root x]: [x] is the root or
    below it.  Two nodes at one address are one node. *)
Theorem C73_identities : forall src root ds x y, parse src = Ok (Some root, ds) ->
  node_of root x -> node_of root y -> nid x = nid y -> x = y.
Proof. exact C73_identities_proof. Qed.
Print Assumptions C73_identities.

(** A node is a child of one node, except that the keyword of a let expression is also a child of the set of its
    bindings ([let_keyword], IdSpec). *)
Theorem C73_one_parent : forall src root ds p q n, parse src = Ok (Some root, ds) -> node_of root p -> node_of root q ->
  In n (present (children p)) -> In n (present (children q)) -> p = q \/ let_keyword p q n \/ let_keyword q p n.
Proof. exact C73_one_parent_proof. Qed.
Print Assumptions C73_one_parent.

(** The parts of a document that are looked at for variables include attributes made up for `inherit` clauses and sets
    made up for dotted names.  [visit (prelude primops) root sc n] (VlaSpec): [n] is one of these parts, with the scopes
    [sc] around it.  What stands at one address is one node with one scope, also if it is looked at more than once. *)
Theorem C73_one_scope : forall src root ds primops sc1 n1 sc2 n2, parse src = Ok (Some root, ds) ->
  visit (prelude primops) root sc1 n1 -> visit (prelude primops) root sc2 n2 -> nid n1 = nid n2 ->
  sc1 = sc2 /\ n1 = n2.
Proof. exact C73_one_scope_proof. Qed.
Print Assumptions C73_one_scope.

(** A name that a `let`, a `rec` set or a function declares is written in the document, as an identifier or attribute
    name. *)
Theorem C73_declared : forall src root ds primops sc o x nd, parse src = Ok (Some root, ds) ->
  declaration primops root sc o x nd -> node_of root nd /\ (kind_of nd = NK_Identifier \/ kind_of nd = NK_AttrName).
Proof. exact C73_declared_proof. Qed.
Print Assumptions C73_declared.

(** A `with` that is looked at is written in the document, and is told by its keyword, which is not a declared name. *)
Theorem C73_with : forall src root ds primops sc i r kw semi w e, parse src = Ok (Some root, ds) ->
  visit (prelude primops) root sc (NWith i r kw semi w e) ->
  node_of root (NWith i r kw semi w e) /\
  (forall sc' i' r' kw' semi' w' e', visit (prelude primops) root sc' (NWith i' r' kw' semi' w' e') ->
     nid kw' = nid kw -> NWith i' r' kw' semi' w' e' = NWith i r kw semi w e) /\
  (forall sc' o x nd, declaration primops root sc' o x nd -> nid nd <> nid kw).
Proof. exact C73_with_proof. Qed.
Print Assumptions C73_with.

Example C73_nonvacuous :
  (* the expression [x] of the inherit clause is looked at twice; the let keyword has two parents *)
  let src := b "x: with x; let inherit (x) a b; c.d = rec { a = 1; }; c.e = a; in c" in
  parse src = Ok (Some (tree src), []) /\
  (exists i j, i <> j /\ nid (snd (at_ src i)) = nid (snd (at_ src j)) /\
     kind_of (snd (at_ src i)) = NK_ExprVar /\ kind_of (snd (at_ src j)) = NK_ExprVar /\
     visit (prelude table) (tree src) (fst (at_ src i)) (snd (at_ src i)) /\
     visit (prelude table) (tree src) (fst (at_ src j)) (snd (at_ src j))) /\
  (exists p q n, node_of (tree src) p /\ node_of (tree src) q /\ p <> q /\
     In n (present (children p)) /\ In n (present (children q)) /\ let_keyword p q n).
Proof.
  cbv zeta. set (src := b "x: with x; let inherit (x) a b; c.d = rec { a = 1; }; c.e = a; in c").
  split; [vm_compute; reflexivity|]. split.
  - exists 5, 10. split; [lia|]. do 3 (split; [vm_compute; reflexivity|]). split; apply at_visit; vm_compute; lia.
  - set (l := all_nodes (nsize (tree src)) (tree src)).
    exists (nth 8 l (tree src)), (nth 10 l (tree src)), (nth 9 l (tree src)).
    split; [apply (all_nodes_sound (nsize (tree src))); apply nth_In; vm_compute; lia|].
    split; [apply (all_nodes_sound (nsize (tree src))); apply nth_In; vm_compute; lia|].
    split; [vm_compute; discriminate|]. split; [vm_compute; auto|]. split; [vm_compute; auto|]. vm_compute. auto.
Qed.

(** ** C22: the reports of the variable analysis point inside the document and their fixes apply cleanly.
    [diag_clean] (ParseSpec): the range of the report and of its notes and edits lie in the document, no edit is a
    no-op, and the edits of one fix do not overlap.  The reports of the parser are the subject of C22_parsing
    (ParseProps). *)
Theorem C22_analysis : forall src root ds primops s, parse src = Ok (Some root, ds) ->
  vla primops root = Ok s -> Forall (diag_clean src) (v_diags s).
Proof. exact C22_analysis_proof. Qed.
Print Assumptions C22_analysis.

(** Nine reports, with the number of edits in their fixes: an undefined variable, a useless `with`, removable and missing
    prefixes, an unknown builtin, a useless `rec` and unused definitions. *)
Example C22_analysis_nonvacuous :
  exists root s, parse (b "let a = 1; inherit (builtins) map; in rec { b = with c; 1; d = builtins.map; e = getEnv; f = builtins.zz; }") = Ok (Some root, []) /\
    vla [(b "map", false); (b "__getEnv", false)] root = Ok s /\
    map (fun d => (d_kind d, map (fun f => List.length (f_edits f)) (d_fixes d))) (v_diags s) =
      [(DK_UnusedDefLet, []); (DK_UnusedDefLet, [1]); (DK_ExtraRecursive, [1]); (DK_PrimOpUnknown, []);
       (DK_PrimOpNeedsPrefix, [1]); (DK_PrimOpRemovablePrefix, [2]); (DK_ExtraWith, [3]); (DK_UndefinedVariable, []);
       (DK_PrimOpRemovablePrefix, [1])].
Proof.
  do 2 eexists. split; [vm_compute; reflexivity|]. split; vm_compute; reflexivity.
Qed.

(** ** C62: the messages of the variable analysis are fully instantiated.
    [fills msg args text] (ParseSpec): [text] is the message with its k-th placeholder replaced by the k-th argument, and
    no argument is left.  The reports of the parser are the subject of C62_instantiated (ParseProps). *)
Theorem C62_analysis : forall src root ds primops s d, parse src = Ok (Some root, ds) ->
  vla primops root = Ok s -> In d (v_diags s) ->
    (exists text, d_format d = Ok text /\ fills (dmessage (d_kind d)) (d_args d) text) /\
    Forall (fun n => exists text, n_format n = Ok text /\ fills (nmessage (n_kind n)) (n_args n) text) (d_notes d).
Proof. exact C62_analysis_proof. Qed.
Print Assumptions C62_analysis.

Example C62_analysis_nonvacuous :
  exists root s, parse (b "x: { y ? x }: builtins.zz") = Ok (Some root, []) /\
    vla [(b "map", false)] root = Ok s /\
    map d_format (v_diags s) = [Ok (b "attribute `y` of argument is not used"); Ok (b "unknown builtin `zz`")].
Proof.
  do 2 eexists. split; [vm_compute; reflexivity|]. split; vm_compute; reflexivity.
Qed.

(** ** C74: the variable analysis completes on every document.
    [plain_table] (IdSpec): the names of the table are distinct and none of them is one of the names that are in scope
    anyway.  No builtin is internal: see C74_refuted for the rest. *)
Theorem C74_partial : forall src root ds primops, parse src = Ok (Some root, ds) ->
  plain_table primops -> (forall x internal, In (x, internal) primops -> internal = false) ->
  exists s, vla primops root = Ok s.
Proof. exact C74_partial_proof. Qed.
Print Assumptions C74_partial.

(** A document with errors, duplicates, dynamic names, inherit clauses and an unclosed set, and its reports. *)
Example C74_partial_nonvacuous :
  let primops := [(b "map", false); (b "__getEnv", false)] in
  plain_table primops /\ (forall x internal, In (x, internal) primops -> internal = false) /\
  exists root ds s, parse (b "a: { b ? a, b, c }@a: let d.e = with c; f; d.e = 1; inherit (b) x ${y}; in rec { inherit; ""${z}"" = getEnv") = Ok (Some root, ds) /\
    List.length ds = 6 /\ vla primops root = Ok s /\ List.length (v_diags s) = 5.
Proof.
  cbv zeta. split; [|split].
  - split.
    + repeat (constructor; [intro H; repeat (destruct H as [H|H]; [discriminate H|]); exact H|]). constructor.
    + intros x H R. unfold reserved in R. repeat (destruct H as [<-|H]; [repeat (destruct R as [R|R]; [discriminate R|]); exact R|]). destruct H.
  - intros x f H. repeat (destruct H as [H|H]; [now inversion H|]). destruct H.
  - do 3 eexists. split; [vm_compute; reflexivity|]. split; [vm_compute; reflexivity|]. split; vm_compute; reflexivity.
Qed.

(** With an internal builtin in the table, a document that uses its name as a variable makes the analysis fail an
    assertion: the name is not in scope, but the table knows it. *)
Theorem C74_refuted : exists src root primops, parse src = Ok (Some root, []) /\ plain_table primops /\
  vla primops root = Crash "primop name should be defined".
Proof. exact C74_refuted_proof. Qed.
Print Assumptions C74_refuted.
