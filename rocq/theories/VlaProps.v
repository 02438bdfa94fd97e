(** Properties C27 to C31 and C34 of variable lookup analysis. *)
From Verif Require Import Base Diag LexModel AstModel PSupModel SemaModel ParseModel ParseSpec VlaModel VlaSpec VlaPost VlaBase VlaProofs VlaDfs VlaMain VlaThms IdSpec IdProofs VlaFacts.


(** ** C27: variables resolve by lexical scoping.
    [occurs_at primops root sc v x] (VlaSpec) says that [v] is an occurrence of the variable [x] in the program [root]
    and that [sc] is the list of scopes around it, innermost first.  [bound sc x (l :: t)] says that [l] is the
    innermost one declaring [x].  `inherit x;` in a recursive set is looked up outside that set by [in_set]. *)
Theorem C27_bound : forall src ds primops root s sc v x who names t,
  parse src = Ok (Some root, ds) ->
  vla primops root = Ok s -> occurs_at primops root sc v x ->
  bound sc x (Binds who names :: t) ->
  exists d y nd, query s v = Some (Defined d) /\ nth_error (v_defs s) d = Some y /\
    df_syn y = Some nd /\ In (x, (nd, df_src y)) names.
Proof. exact C27_bound_proof. Qed.
Print Assumptions C27_bound.

Theorem C27_prelude : forall src ds primops root s sc v x names t,
  parse src = Ok (Some root, ds) ->
  vla primops root = Ok s -> occurs_at primops root sc v x ->
  bound sc x (Prelude names :: t) ->
  exists d y, query s v = Some (Defined d) /\ nth_error (v_defs s) d = Some y /\ df_syn y = None /\ df_src y = DS_Builtin.
Proof. exact C27_prelude_proof. Qed.
Print Assumptions C27_prelude.

Theorem C27_with : forall src ds primops root s sc v x,
  parse src = Ok (Some root, ds) ->
  vla primops root = Ok s -> occurs_at primops root sc v x ->
  unbound sc x -> withs sc <> [] -> exists d, query s v = Some (FromWith d).
Proof. exact C27_with_proof. Qed.
Print Assumptions C27_with.

Theorem C27_undefined : forall src ds primops root s sc v x,
  parse src = Ok (Some root, ds) ->
  vla primops root = Ok s -> occurs_at primops root sc v x ->
  unbound sc x -> withs sc = [] -> query s v = Some Undefined.
Proof. exact C27_undefined_proof. Qed.
Print Assumptions C27_undefined.

(** Each scope declares a name once, so "the declaration of [x] in that scope" is one node. *)
Theorem C27_one_declaration : forall primops root s sc n who names x a c,
  vla primops root = Ok s -> visit (prelude primops) root sc n -> opens n = Some (Binds who names) ->
  In (x, a) names -> In (x, c) names -> a = c.
Proof. exact C27_one_declaration_proof. Qed.
Print Assumptions C27_one_declaration.

Example C27_nonvacuous :
  let src := b "x: with x; rec { x = y; z = x; w = map; inherit u; }" in
  vla table (tree src) = Ok (analysed src) /\ (exists ds, parse src = Ok (Some (tree src), ds)) /\ 
  (* z = x : the attribute of the set, not the parameter *)
  (exists sc v who t, occurs_at table (tree src) sc v (b "x") /\ opens who <> None /\
     match sc with Binds w names :: t' => w = who /\ t = t' /\ bound sc (b "x") (Binds w names :: t) | _ => False end /\
     withs sc <> []) /\
  (* x = y : from the with *)
  (exists sc v, occurs_at table (tree src) sc v (b "y") /\ unbound sc (b "y") /\ withs sc <> []).
Proof.
  cbv zeta. set (src := b "x: with x; rec { x = y; z = x; w = map; inherit u; }"). split; [vm_compute; reflexivity|].
  split; [eexists; vm_compute; reflexivity|]. split.
  - exists (fst (at_ src 7)), (snd (at_ src 7)). do 2 eexists. split; [|split; [|split]].
    + split; [apply at_visit|split]; vm_compute; try reflexivity; lia.
    + instantiate (1 := snd (at_ src 3)). vm_compute. discriminate.
    + vm_compute. split; [reflexivity|]. split; [reflexivity|]. constructor. simpl. auto.
    + vm_compute. discriminate.
  - exists (fst (at_ src 6)), (snd (at_ src 6)). split; [|split].
    + split; [apply at_visit|split]; vm_compute; try reflexivity; lia.
    + apply unbound_test. vm_compute. reflexivity.
    + vm_compute. discriminate.
Qed.

(** ** C28: undefined-variable errors are exact.
    [occurs_at] covers every variable of the tree except the parts the analysis never reaches; [C28_refuted] shows such
    a part, hence the name. *)
Theorem C28_undefined_partial : forall primops root s dg,
  vla primops root = Ok s -> d_kind dg = DK_UndefinedVariable ->
  (In dg (v_diags s) <->
   exists sc v x, occurs_at primops root sc v x /\ unbound sc x /\ withs sc = [] /\
     ~ In x (map fst primops) /\ ~ In (b "__" ++ x) (map fst primops) /\
     dg = d_arg x (diag0 DK_UndefinedVariable (nrange v))).
Proof. exact C28_undefined_partial_proof. Qed.
Print Assumptions C28_undefined_partial.

Theorem C28_missing_prefix_partial : forall primops root s dg,
  vla primops root = Ok s -> d_kind dg = DK_PrimOpNeedsPrefix ->
  (In dg (v_diags s) <->
   exists sc v x, occurs_at primops root sc v x /\ unbound sc x /\ withs sc = [] /\
     ~ In x (map fst primops) /\ In (b "__" ++ x) (map fst primops) /\
     dg = d_fix (Fix_ (b "use `builtins.` prefix") [TEdit (point (nl v)) (b "builtins.")])
            (diag0 DK_PrimOpNeedsPrefix (nrange v))).
Proof. exact C28_missing_prefix_partial_proof. Qed.
Print Assumptions C28_missing_prefix_partial.

Example C28_nonvacuous :
  let src := b "let x = 1; in x y add (with z; y)" in
  vla table (tree src) = Ok (analysed src) /\
  map (fun d => (d_kind d, d_args d, off (lcur (d_range d)))) (v_diags (analysed src)) =
    [(DK_UndefinedVariable, [b "z"], 28); (DK_PrimOpNeedsPrefix, [], 18); (DK_UndefinedVariable, [b "y"], 16)] /\
  (exists sc v, occurs_at table (tree src) sc v (b "y") /\ unbound sc (b "y") /\ withs sc = [] /\
     ~ In (b "y") (map fst table) /\ ~ In (b "__" ++ b "y") (map fst table)).
Proof.
  cbv zeta. set (src := b "let x = 1; in x y add (with z; y)"). split; [vm_compute; reflexivity|]. split; [vm_compute; reflexivity|].
  exists (fst (at_ src 4)), (snd (at_ src 4)). split; [|split; [|split; [|split]]].
  - split; [apply at_visit|split]; vm_compute; try reflexivity; lia.
  - apply unbound_test. vm_compute. reflexivity.
  - vm_compute. reflexivity.
  - simpl. intuition discriminate.
  - simpl. intuition discriminate.
Qed.

(** The full claim fails: the expression of an `inherit (e);` that lists no names is never looked at. *)
Theorem C28_refuted : exists src root ds s v,
  parse src = Ok (Some root, ds) /\ map d_kind ds = [DK_EmptyInherit] /\ vla table root = Ok s /\ v_diags s = [] /\
  node_of root v /\ is_var v (b "nowhere").
Proof. exact C28_refuted_proof. Qed.
Print Assumptions C28_refuted.

(** ** C29: unused-definition warnings are exact.
    [refers sc n x v] (VlaSpec): the node [n] declares [x], and [v] is an occurrence of [x] below [n] whose innermost
    declaration is that one. *)
Theorem C29_reported_partial : forall primops root s dg,
  vla primops root = Ok s -> In dg (v_diags s) -> is_unused_report (d_kind dg) ->
  exists sc n who names x nd src,
    visit (prelude primops) root sc n /\ opens n = Some (Binds who names) /\ In (x, (nd, src)) names /\
    unused_report src = Some (d_kind dg) /\ d_range dg = nrange nd /\ d_args dg = [x] /\ d_tags dg = [Faded] /\
    (forall v, ~ refers sc n x v) /\
    (* accepting the fix deletes that binding *)
    forall fx, In fx (d_fixes dg) -> exists q, In q (written who) /\ begins_with q nd /\ f_edits fx = [TEdit (nrange q) []].
Proof. exact C29_reported_partial_proof. Qed.
Print Assumptions C29_reported_partial.

Theorem C29_unused_is_reported : forall primops root s sc n who names x nd src k,
  vla primops root = Ok s -> visit (prelude primops) root sc n -> opens n = Some (Binds who names) ->
  In (x, (nd, src)) names -> unused_report src = Some k -> (forall v, ~ refers sc n x v) ->
  exists dg, In dg (v_diags s) /\ d_kind dg = k /\ d_range dg = nrange nd /\ d_args dg = [x].
Proof. exact C29_unused_is_reported_proof. Qed.
Print Assumptions C29_unused_is_reported.

Example C29_nonvacuous :
  let src := b "let x = 1; y = 2; in { a, c ? y }@d: a" in
  vla table (tree src) = Ok (analysed src) /\
  map (fun d => (d_kind d, d_args d, map f_edits (d_fixes d))) (v_diags (analysed src)) =
    [(DK_UnusedDefLet, [b "x"], [[TEdit (mkRange (mkCur 0 4 4) (mkCur 0 10 10)) []]]);
     (DK_UnusedDefLambdaWithArg_Arg, [b "d"], []); (DK_UnusedDefLambdaWithArg_Formal, [b "c"], [])].
Proof.
  cbv zeta. split; vm_compute; reflexivity.
Qed.

(** The full claim fails: the only use of [x] is one the analysis never looks at, and the offered fix deletes it. *)
Theorem C29_refuted : exists src root ds s dg v,
  parse src = Ok (Some root, ds) /\ map d_kind ds = [DK_EmptyInherit] /\ vla table root = Ok s /\ v_diags s = [dg] /\
  d_kind dg = DK_UnusedDefLet /\ d_args dg = [b "x"] /\
  map f_edits (d_fixes dg) = [[TEdit (mkRange (mkCur 0 4 4) (mkCur 0 10 10)) []]] /\
  node_of root v /\ is_var v (b "x").
Proof. exact C29_refuted_proof. Qed.
Print Assumptions C29_refuted.

(** ** C30: useless-with and useless-rec hints are exact, and accepting them changes nothing. *)
Theorem C30_with : forall src ds primops root s dg,
  parse src = Ok (Some root, ds) ->
  vla primops root = Ok s -> d_kind dg = DK_ExtraWith ->
  (In dg (v_diags s) <->
   exists sc i r kw semi w e, visit (prelude primops) root sc (NWith i r kw semi w e) /\
     (forall v, ~ may_use sc (NWith i r kw semi w e) v) /\
     dg = d_fix (Fix_ (b "remove `with` expression") (map (fun n => TEdit (nrange n) []) (somes [Some kw; semi; w])))
            (diag0 DK_ExtraWith (nrange kw))).
Proof. exact C30_with_proof. Qed.
Print Assumptions C30_with.

Theorem C30_with_removal : forall sc i r kw semi w e,
  (forall v, ~ may_use sc (NWith i r kw semi w (Some e)) v) ->
  forall sc' v x, visit (WithOf (NWith i r kw semi w (Some e)) :: sc) e sc' v -> is_var v x ->
  exists sc'', visit sc e sc'' v /\ same_meaning x sc' sc''.
Proof. exact C30_with_removal_proof. Qed.
Print Assumptions C30_with_removal.

Theorem C30_rec : forall primops root s dg,
  vla primops root = Ok s -> d_kind dg = DK_ExtraRecursive ->
  (In dg (v_diags s) <->
   exists sc n i r bd kw st dy names, visit (prelude primops) root sc n /\
     opens n = Some (Binds (NAttrs i r bd (Some kw) st dy) names) /\ (forall x v, ~ refers sc n x v) /\
     dg = d_tag Faded (d_fix (Fix_ (b "remove `rec` keyword") [TEdit (nrange kw) []]) (diag0 DK_ExtraRecursive (nrange kw)))).
Proof. exact C30_rec_proof. Qed.
Print Assumptions C30_rec.

(** full statement also for the `let { ... }` form, of which [C30_refuted] shows it false *)
Theorem C30_rec_removal_partial : forall sc i r bd kw st dy,
  (forall x v, ~ refers sc (NAttrs i r bd (Some kw) st dy) x v) ->
  forall sc' v x, visit sc (NAttrs i r bd (Some kw) st dy) sc' v -> is_var v x ->
  exists sc'', visit sc (NAttrs i r bd None st dy) sc'' v /\ same_meaning x sc' sc''.
Proof. exact C30_rec_removal_partial_proof. Qed.
Print Assumptions C30_rec_removal_partial.

Example C30_nonvacuous :
  let src := b "a: with a; rec { x = a; y = rec { u = 1; v = u; }; z = with y; a; }" in
  vla table (tree src) = Ok (analysed src) /\ (exists ds, parse src = Ok (Some (tree src), ds)) /\ 
  map (fun d => (d_kind d, map (fun e => (off (lcur (e_range e)), off (rcur (e_range e)))) (flat_map f_edits (d_fixes d))))
      (v_diags (analysed src)) =
    [(DK_ExtraWith, [(3, 7); (9, 10); (8, 9)]); (DK_ExtraWith, [(55, 59); (61, 62); (60, 61)])] /\
  let src2 := b "x: rec { a = 1; inherit x; }" in
  vla table (tree src2) = Ok (analysed src2) /\
  map (fun d => (d_kind d, map (fun e => (off (lcur (e_range e)), off (rcur (e_range e)))) (flat_map f_edits (d_fixes d))))
      (v_diags (analysed src2)) = [(DK_ExtraRecursive, [(3, 6)])].
Proof.
  cbv zeta. split; [vm_compute; reflexivity|]. split; [eexists; vm_compute; reflexivity|].
  split; [vm_compute; reflexivity|]. split; vm_compute; reflexivity.
Qed.

(** The `let { body = ...; }` form is analysed as a recursive set whose `rec` is the word `let`: the hint says that the
    `rec` keyword is useless and deletes `let`, which turns the value of `body` into a set. *)
Theorem C30_refuted : exists src root ds s dg e,
  parse src = Ok (Some root, ds) /\ map d_kind ds = [DK_DeprecatedLet] /\ vla table root = Ok s /\ v_diags s = [dg] /\
  d_kind dg = DK_ExtraRecursive /\ map f_edits (d_fixes dg) = [[e]] /\
  kind_of root = NK_ExprLegacyLet /\
  exists root2, parse (apply_edit src e) = Ok (Some root2, []) /\ kind_of root2 = NK_ExprAttrs.
Proof. exact C30_refuted_proof. Qed.
Print Assumptions C30_refuted.

(** ** C31: the `with` scopes of a variable *)
Theorem C31_scopes : forall src ds primops root s sc v x,
  parse src = Ok (Some root, ds) ->
  vla primops root = Ok s -> occurs_at primops root sc v x -> unbound sc x ->
  getWithScopes s v = map nid (withs sc).
Proof. exact C31_scopes_proof. Qed.
Print Assumptions C31_scopes.

(** none for a variable that some scope declares *)
Theorem C31_none_when_bound : forall src ds primops root s sc v x l t,
  parse src = Ok (Some root, ds) ->
  vla primops root = Ok s -> occurs_at primops root sc v x -> bound sc x (l :: t) ->
  getWithScopes s v = [].
Proof. exact C31_none_when_bound_proof. Qed.
Print Assumptions C31_none_when_bound.

Example C31_nonvacuous :
  let src := b "let a = 1; in with a; x: with x; y" in
  vla table (tree src) = Ok (analysed src) /\ (exists ds, parse src = Ok (Some (tree src), ds)) /\ 
  exists sc v w1 w2, occurs_at table (tree src) sc v (b "y") /\ unbound sc (b "y") /\
    withs sc = [w1; w2] /\ off (nl w1) = 25 /\ off (nl w2) = 14.
Proof.
  cbv zeta. set (src := b "let a = 1; in with a; x: with x; y"). split; [vm_compute; reflexivity|].
  split; [eexists; vm_compute; reflexivity|].
  exists (fst (at_ src 7)), (snd (at_ src 7)). do 2 eexists. split; [|split; [|split; [|split]]].
  - split; [apply at_visit|split]; vm_compute; try reflexivity; lia.
  - apply unbound_test. vm_compute. reflexivity.
  - vm_compute. reflexivity.
  - vm_compute. reflexivity.
  - vm_compute. reflexivity.
Qed.

(** ** C34: definition and references are inverse. *)
Theorem C34_use_of_definition : forall primops root s v d,
  vla primops root = Ok s -> query s v = Some (Defined d) ->
  exists y, nth_error (v_defs s) d = Some y /\ In (nid v) (df_uses y).
Proof. exact C34_use_of_definition_proof. Qed.
Print Assumptions C34_use_of_definition.

(** Definitions of a `with` are excepted ([C34_refuted]), and where the same expression is analysed more than once
    (`inherit (e) a b`), the definition found is an equal copy: same syntax, same role. *)
Theorem C34_definition_of_use_partial : forall src ds primops root s d y u,
  parse src = Ok (Some root, ds) ->
  vla primops root = Ok s -> nth_error (v_defs s) d = Some y -> df_src y <> DS_With -> In u (df_uses y) ->
  exists sc v x d' y', occurs_at primops root sc v x /\ nid v = u /\ query s v = Some (Defined d') /\
    nth_error (v_defs s) d' = Some y' /\ df_syn y' = df_syn y /\ df_src y' = df_src y.
Proof. exact C34_definition_of_use_partial_proof. Qed.
Print Assumptions C34_definition_of_use_partial.

(** the definition found from a piece of syntax is the definition of that piece *)
Theorem C34_definition_of_syntax : forall primops root s n d,
  vla primops root = Ok s -> toDef s n = Some d ->
  exists y nd, nth_error (v_defs s) d = Some y /\ df_syn y = Some nd /\ nid nd = nid n.
Proof. exact C34_definition_of_syntax_proof. Qed.
Print Assumptions C34_definition_of_syntax.

Example C34_nonvacuous :
  let src := b "x: let y = x; in y x" in
  vla table (tree src) = Ok (analysed src) /\ (exists ds, parse src = Ok (Some (tree src), ds)) /\ 
  map (fun y => (df_src y, List.length (df_uses y))) (skipn 16 (v_defs (analysed src))) = [(DS_LambdaArg, 2); (DS_Let, 1)].
Proof.
  cbv zeta. split; [vm_compute; reflexivity|]. split; [eexists; vm_compute; reflexivity|].
  vm_compute. reflexivity.
Qed.

Theorem C34_refuted : exists src root s sc v d d' y y',
  parse src = Ok (Some root, []) /\ vla table root = Ok s /\ occurs_at table root sc v (b "x") /\
  nth_error (v_defs s) d = Some y /\ In (nid v) (df_uses y) /\
  query s v = Some (FromWith d') /\ nth_error (v_defs s) d' = Some y' /\
  option_map nid (df_syn y) <> option_map nid (df_syn y').
Proof. exact C34_refuted_proof. Qed.
Print Assumptions C34_refuted.

(** ** C69: what is said of `builtins.x`. *)
Theorem C69_removable : forall primops root s dg,
  vla primops root = Ok s -> d_kind dg = DK_PrimOpRemovablePrefix ->
  (In dg (v_diags s) <->
   exists sc n, reached primops root sc n /\
     ((exists e dot first x, reads_builtin n e dot first x /\ In x (map fst primops) /\
        dg = d_fix (deleting (b "remove `builtins.` prefix") (somes [Some e; dot])) (diag0 DK_PrimOpRemovablePrefix (nrange e))) \/
      (exists key x, inherits_builtin n key x /\ In x (map fst primops) /\
        dg = d_fix (deleting (b "remove unnecessary inherit") [key]) (diag0 DK_PrimOpRemovablePrefix (nrange key))))).
Proof. exact C69_removable_proof. Qed.
Print Assumptions C69_removable.

Theorem C69_unknown : forall primops root s dg,
  vla primops root = Ok s -> d_kind dg = DK_PrimOpUnknown ->
  (In dg (v_diags s) <->
   exists sc n e dot first x, reached primops root sc n /\ reads_builtin n e dot first x /\
     ~ In x (map fst primops) /\ ~ In (b "__" ++ x) (map fst primops) /\ ~ constant_member x /\
     dg = d_arg x (diag0 DK_PrimOpUnknown (nrange first))).
Proof. exact C69_unknown_proof. Qed.
Print Assumptions C69_unknown.

Example C69_nonvacuous :
  let src := b "let inherit (builtins) map; in map builtins.map builtins.add builtins.nope builtins.true" in
  vla table (tree src) = Ok (analysed src) /\
  map (fun d => (d_kind d, off (lcur (d_range d)), map (fun f => map e_range (f_edits f)) (d_fixes d))) (v_diags (analysed src)) =
    [(DK_PrimOpUnknown, 70, []);
     (DK_PrimOpRemovablePrefix, 35, [[mkRange (mkCur 0 35 35) (mkCur 0 43 43); mkRange (mkCur 0 43 43) (mkCur 0 44 44)]]);
     (DK_PrimOpRemovablePrefix, 23, [[mkRange (mkCur 0 23 23) (mkCur 0 26 26)]])].
Proof. cbv zeta. split; vm_compute; reflexivity. Qed.

(** The hint is given whatever `builtins` and the name mean there: in this program the name that is left over after the
    fix is the `map` of the `let`. *)
Theorem C69_refuted : exists src root s sc n e dot first,
  parse src = Ok (Some root, []) /\ vla table root = Ok s /\ reached table root sc n /\
  reads_builtin n e dot first (b "map") /\
  In (d_fix (deleting (b "remove `builtins.` prefix") (somes [Some e; dot])) (diag0 DK_PrimOpRemovablePrefix (nrange e))) (v_diags s) /\
  exists l names t, l = Binds names t /\ hd_error sc = Some l /\ declares l (b "map").
Proof. exact C69_refuted_proof. Qed.
Print Assumptions C69_refuted.
