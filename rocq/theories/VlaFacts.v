(** Proofs of the theorems stated in VlaProps. *)
From Verif Require Import Base Diag LexModel AstModel PSupModel SemaModel ParseModel ParseSpec VlaModel VlaSpec VlaPost VlaBase VlaProofs VlaDfs VlaMain VlaThms IdSpec IdProofs.

(** a small table of builtins for the examples: name, and whether it is internal *)
Definition table : list (bytes * bool) := [(b "map", false); (b "__add", false)].
(** the tree of a document *)
Definition tree (src : bytes) : node :=
  match parse src with Ok (Some n, _) => n | _ => NMisc 0 (point (mkCur 0 0 0)) end.
Definition analysed (src : bytes) : vst :=
  match vla table (tree src) with Ok s => s | _ => VS [] [] [] [] [] [] [] end.
(** the occurrence number [i] of the walk over a document, with its scope *)
Definition at_ (src : bytes) (i : nat) : scope * node :=
  nth i (visits (S (vsize (tree src))) (prelude table) (tree src)) ([], NMisc 0 (point (mkCur 0 0 0))).
Lemma visits_sound k : forall s n s' m, In (s', m) (visits k s n) -> visit s n s' m.
Proof.
  induction k as [|k IH]; simpl; intros s n s' m H; [contradiction|].
  destruct H as [H|H]; [injection H as <- <-; constructor|].
  apply in_flat_map in H as ([s1 n1] & I & J). simpl in J. econstructor; eauto.
Qed.
Lemma at_visit src i : i < List.length (visits (S (vsize (tree src))) (prelude table) (tree src)) ->
  visit (prelude table) (tree src) (fst (at_ src i)) (snd (at_ src i)).
Proof.
  intros H. apply (visits_sound (S (vsize (tree src)))). rewrite <- surjective_pairing. unfold at_. now apply nth_In.
Qed.
Fixpoint below (k : nat) (n : node) : list node :=
  match k with 0 => [] | S k => n :: flat_map (below k) (present (children n)) end.
Lemma below_sound k : forall n m, In m (below k n) -> node_of n m.
Proof.
  induction k as [|k IH]; simpl; intros n m H; [contradiction|].
  destruct H as [<-|H]; [constructor|]. apply in_flat_map in H as (c & I & J). econstructor; eauto.
Qed.
Definition declaresb (l : layer) (x : bytes) : bool :=
  match l with Prelude xs => existsb (bytes_eqb x) xs | Binds _ ns => existsb (bytes_eqb x) (map fst ns) | WithOf _ => false end.
Lemma declaresb_complete l x : declares l x -> declaresb l x = true.
Proof.
  destruct l; simpl; try contradiction; intros H; apply existsb_exists; exists x; split; auto; now apply bytes_eqb_eq.
Qed.
Lemma unbound_test sc x : forallb (fun l => negb (declaresb l x)) sc = true -> unbound sc x.
Proof.
  intros H l I D. rewrite forallb_forall in H. specialize (H _ I). now rewrite (declaresb_complete _ _ D) in H.
Qed.

Lemma C27_bound_any : forall primops root s sc v x who names t,
  vla primops root = Ok s -> coherent primops root -> occurs_at primops root sc v x ->
  bound sc x (Binds who names :: t) ->
  exists d y nd, query s v = Some (Defined d) /\ nth_error (v_defs s) d = Some y /\
    df_syn y = Some nd /\ In (x, (nd, df_src y)) names.
Proof.
  intros primops root s sc v x who names t H C O B. destruct (query_res _ _ _ _ _ _ H C O) as (r & Q & R).
  destruct r as [|d|d]; simpl in R.
  - destruct R as [U _]. exfalso. destruct (bound_split _ _ _ B) as (pre & l & t' & -> & E & _ & D). injection E as <- <-.
    apply (U (Binds who names)); auto. apply in_app_iff. right. now left.
  - destruct R as [U _]. exfalso. destruct (bound_split _ _ _ B) as (pre & l & t' & -> & E & _ & D). injection E as <- <-.
    apply (U (Binds who names)); auto. apply in_app_iff. right. now left.
  - destruct R as (l & t' & B' & y & Y & M). pose proof (bound_fun _ _ _ _ B B') as E. injection E as <- <-.
    destruct M as (nd & M1 & M2). exists d, y, nd. auto.
Qed.

Lemma C27_bound_proof : forall src ds primops root s sc v x who names t,
  parse src = Ok (Some root, ds) ->
  vla primops root = Ok s -> occurs_at primops root sc v x ->
  bound sc x (Binds who names :: t) ->
  exists d y nd, query s v = Some (Defined d) /\ nth_error (v_defs s) d = Some y /\
    df_syn y = Some nd /\ In (x, (nd, df_src y)) names.
Proof.
  intros *. intros HP. pose proof (parse_coherent _ _ _ primops HP).
  intros. eapply C27_bound_any; eauto.
Qed.

Lemma C27_prelude_any : forall primops root s sc v x names t,
  vla primops root = Ok s -> coherent primops root -> occurs_at primops root sc v x ->
  bound sc x (Prelude names :: t) ->
  exists d y, query s v = Some (Defined d) /\ nth_error (v_defs s) d = Some y /\ df_syn y = None /\ df_src y = DS_Builtin.
Proof.
  intros primops root s sc v x names t H C O B. destruct (query_res _ _ _ _ _ _ H C O) as (r & Q & R).
  destruct r as [|d|d]; simpl in R.
  - destruct R as [U _]. exfalso. destruct (bound_split _ _ _ B) as (pre & l & t' & -> & E & _ & D). injection E as <- <-.
    apply (U (Prelude names)); auto. apply in_app_iff. right. now left.
  - destruct R as [U _]. exfalso. destruct (bound_split _ _ _ B) as (pre & l & t' & -> & E & _ & D). injection E as <- <-.
    apply (U (Prelude names)); auto. apply in_app_iff. right. now left.
  - destruct R as (l & t' & B' & y & Y & M). pose proof (bound_fun _ _ _ _ B B') as E. injection E as <- <-.
    exists d, y. destruct M. auto.
Qed.

Lemma C27_prelude_proof : forall src ds primops root s sc v x names t,
  parse src = Ok (Some root, ds) ->
  vla primops root = Ok s -> occurs_at primops root sc v x ->
  bound sc x (Prelude names :: t) ->
  exists d y, query s v = Some (Defined d) /\ nth_error (v_defs s) d = Some y /\ df_syn y = None /\ df_src y = DS_Builtin.
Proof.
  intros *. intros HP. pose proof (parse_coherent _ _ _ primops HP).
  intros. eapply C27_prelude_any; eauto.
Qed.

Lemma C27_with_any : forall primops root s sc v x,
  vla primops root = Ok s -> coherent primops root -> occurs_at primops root sc v x ->
  unbound sc x -> withs sc <> [] -> exists d, query s v = Some (FromWith d).
Proof.
  intros primops root s sc v x H C O U W. destruct (query_res _ _ _ _ _ _ H C O) as (r & Q & R).
  destruct r as [|d|d]; simpl in R.
  - now destruct R.
  - eauto.
  - destruct R as (l & t' & B & _). exfalso. destruct (bound_split _ _ _ B) as (pre & l0 & t0 & -> & E & _ & D). injection E as <- <-.
    apply (U l); auto. apply in_app_iff. right. now left.
Qed.

Lemma C27_with_proof : forall src ds primops root s sc v x,
  parse src = Ok (Some root, ds) ->
  vla primops root = Ok s -> occurs_at primops root sc v x ->
  unbound sc x -> withs sc <> [] -> exists d, query s v = Some (FromWith d).
Proof.
  intros *. intros HP. pose proof (parse_coherent _ _ _ primops HP).
  intros. eapply C27_with_any; eauto.
Qed.

Lemma C27_undefined_any : forall primops root s sc v x,
  vla primops root = Ok s -> coherent primops root -> occurs_at primops root sc v x ->
  unbound sc x -> withs sc = [] -> query s v = Some Undefined.
Proof.
  intros primops root s sc v x H C O U W. destruct (query_res _ _ _ _ _ _ H C O) as (r & Q & R).
  destruct r as [|d|d]; simpl in R; auto.
  - destruct R as (_ & ws & w & E & _). rewrite W in E. now destruct ws.
  - destruct R as (l & t' & B & _). exfalso. destruct (bound_split _ _ _ B) as (pre & l0 & t0 & -> & E & _ & D). injection E as <- <-.
    apply (U l); auto. apply in_app_iff. right. now left.
Qed.

Lemma C27_undefined_proof : forall src ds primops root s sc v x,
  parse src = Ok (Some root, ds) ->
  vla primops root = Ok s -> occurs_at primops root sc v x ->
  unbound sc x -> withs sc = [] -> query s v = Some Undefined.
Proof.
  intros *. intros HP. pose proof (parse_coherent _ _ _ primops HP).
  intros. eapply C27_undefined_any; eauto.
Qed.

Lemma C27_one_declaration_proof : forall primops root s sc n who names x a c,
  vla primops root = Ok s -> visit (prelude primops) root sc n -> opens n = Some (Binds who names) ->
  In (x, a) names -> In (x, c) names -> a = c.
Proof.
  intros primops root s sc n who names x a c H V O A C. pose proof (layer_nodup _ _ _ _ _ _ _ H V O) as N.
  clear - N A C. induction names as [|[y d] l IH]; [contradiction|]. simpl in *. inversion N; subst.
  destruct A as [A|A], C as [C|C]; auto; try congruence.
  - injection A as <- <-. elim H1. apply in_map_iff. exists (y, c). auto.
  - injection C as <- <-. elim H1. apply in_map_iff. exists (y, a). auto.
Qed.

Lemma C28_undefined_partial_proof : forall primops root s dg,
  vla primops root = Ok s -> d_kind dg = DK_UndefinedVariable ->
  (In dg (v_diags s) <->
   exists sc v x, occurs_at primops root sc v x /\ unbound sc x /\ withs sc = [] /\
     ~ In x (map fst primops) /\ ~ In (b "__" ++ x) (map fst primops) /\
     dg = d_arg x (diag0 DK_UndefinedVariable (nrange v))).
Proof.
  intros primops root s dg H K. rewrite (undefined_iff _ _ _ _ H K).
  split; intros (sc & v & x & O & U & W & L); exists sc, v, x; split; auto; split; auto; split; auto.
  - destruct L as [L E]. apply lookup_notfound in L as [L1 L2]. auto.
  - destruct L as (L1 & L2 & E). split; auto. apply lookup_notfound. auto.
Qed.

Lemma C28_missing_prefix_partial_proof : forall primops root s dg,
  vla primops root = Ok s -> d_kind dg = DK_PrimOpNeedsPrefix ->
  (In dg (v_diags s) <->
   exists sc v x, occurs_at primops root sc v x /\ unbound sc x /\ withs sc = [] /\
     ~ In x (map fst primops) /\ In (b "__" ++ x) (map fst primops) /\
     dg = d_fix (Fix_ (b "use `builtins.` prefix") [TEdit (point (nl v)) (b "builtins.")])
            (diag0 DK_PrimOpNeedsPrefix (nrange v))).
Proof.
  intros primops root s dg H K. rewrite (prefix_iff _ _ _ _ H K).
  split; intros (sc & v & x & O & U & W & L); exists sc, v, x; split; auto; split; auto; split; auto.
  - destruct L as [L E]. apply lookup_prefixed in L as [L1 L2]. auto.
  - destruct L as (L1 & L2 & E). split; auto. apply lookup_prefixed. auto.
Qed.

Lemma C28_refuted_proof : exists src root ds s v,
  parse src = Ok (Some root, ds) /\ map d_kind ds = [DK_EmptyInherit] /\ vla table root = Ok s /\ v_diags s = [] /\
  node_of root v /\ is_var v (b "nowhere").
Proof.
  exists (b "{ inherit (nowhere); }"). do 4 eexists.
  split; [vm_compute; reflexivity|]. split; [reflexivity|]. split; [vm_compute; reflexivity|].
  split; [vm_compute; reflexivity|]. split.
  - apply (below_sound 20). vm_compute. do 3 right. left. reflexivity.
  - split; vm_compute; reflexivity.
Qed.

Lemma C29_reported_partial_proof : forall primops root s dg,
  vla primops root = Ok s -> In dg (v_diags s) -> is_unused_report (d_kind dg) ->
  exists sc n who names x nd src,
    visit (prelude primops) root sc n /\ opens n = Some (Binds who names) /\ In (x, (nd, src)) names /\
    unused_report src = Some (d_kind dg) /\ d_range dg = nrange nd /\ d_args dg = [x] /\ d_tags dg = [Faded] /\
    (forall v, ~ refers sc n x v) /\
    (* accepting the fix deletes that binding *)
    forall fx, In fx (d_fixes dg) -> exists q, In q (written who) /\ begins_with q nd /\ f_edits fx = [TEdit (nrange q) []].
Proof.
  intros primops root s dg H I [src0 K].
  apply (unused_iff _ _ _ dg (d_kind dg) H) in I; auto; [|exists src0; now apply unused_report_kind].
  destruct I as (sc & n & who & names & x & nd & src & V & O & J & Uk & N & E). apply unused_report_kind in Uk.
  destruct (unusedDiag_facts who x nd src _ Uk) as (F1 & F2 & F3 & F4 & F5). rewrite <- E in F2, F3, F4, F5.
  exists sc, n, who, names, x, nd, src. auto 10.
Qed.

Lemma C29_unused_is_reported_proof : forall primops root s sc n who names x nd src k,
  vla primops root = Ok s -> visit (prelude primops) root sc n -> opens n = Some (Binds who names) ->
  In (x, (nd, src)) names -> unused_report src = Some k -> (forall v, ~ refers sc n x v) ->
  exists dg, In dg (v_diags s) /\ d_kind dg = k /\ d_range dg = nrange nd /\ d_args dg = [x].
Proof.
  intros primops root s sc n who names x nd src k H V O I Uk N.
  destruct (unusedDiag_facts who x nd src _ Uk) as (F1 & F2 & F3 & _).
  exists (unusedDiag who x nd src k). repeat split; auto.
  apply (unused_iff _ _ _ _ k H); auto; [exists src; now apply unused_report_kind|].
  exists sc, n, who, names, x, nd, src. apply unused_report_kind in Uk. auto 10.
Qed.

Lemma C29_refuted_proof : exists src root ds s dg v,
  parse src = Ok (Some root, ds) /\ map d_kind ds = [DK_EmptyInherit] /\ vla table root = Ok s /\ v_diags s = [dg] /\
  d_kind dg = DK_UnusedDefLet /\ d_args dg = [b "x"] /\
  map f_edits (d_fixes dg) = [[TEdit (mkRange (mkCur 0 4 4) (mkCur 0 10 10)) []]] /\
  node_of root v /\ is_var v (b "x").
Proof.
  exists (b "let x = 1; in { inherit (x); }"). do 5 eexists.
  split; [vm_compute; reflexivity|].  split; [vm_compute; reflexivity|]. split; [vm_compute; reflexivity|]. split; [vm_compute; reflexivity|].
  do 3 (split; [vm_compute; reflexivity|]). split.
  - apply (below_sound 20). vm_compute. do 15 right. left. reflexivity.
  - split; vm_compute; reflexivity.
Qed.

Lemma C30_with_any : forall primops root s dg,
  vla primops root = Ok s -> coherent primops root -> d_kind dg = DK_ExtraWith ->
  (In dg (v_diags s) <->
   exists sc i r kw semi w e, visit (prelude primops) root sc (NWith i r kw semi w e) /\
     (forall v, ~ may_use sc (NWith i r kw semi w e) v) /\
     dg = d_fix (Fix_ (b "remove `with` expression") (map (fun n => TEdit (nrange n) []) (somes [Some kw; semi; w])))
            (diag0 DK_ExtraWith (nrange kw))).
Proof.
  intros primops root s dg H C K. exact (with_iff _ _ _ _ H C K).
Qed.

Lemma C30_with_proof : forall src ds primops root s dg,
  parse src = Ok (Some root, ds) ->
  vla primops root = Ok s -> d_kind dg = DK_ExtraWith ->
  (In dg (v_diags s) <->
   exists sc i r kw semi w e, visit (prelude primops) root sc (NWith i r kw semi w e) /\
     (forall v, ~ may_use sc (NWith i r kw semi w e) v) /\
     dg = d_fix (Fix_ (b "remove `with` expression") (map (fun n => TEdit (nrange n) []) (somes [Some kw; semi; w])))
            (diag0 DK_ExtraWith (nrange kw))).
Proof.
  intros *. intros HP. pose proof (parse_coherent _ _ _ primops HP).
  intros. eapply C30_with_any; eauto.
Qed.

Lemma C30_with_removal_proof : forall sc i r kw semi w e,
  (forall v, ~ may_use sc (NWith i r kw semi w (Some e)) v) ->
  forall sc' v x, visit (WithOf (NWith i r kw semi w (Some e)) :: sc) e sc' v -> is_var v x ->
  exists sc'', visit sc e sc'' v /\ same_meaning x sc' sc''.
Proof.
  intros sc i r kw semi w e. exact (with_useless sc i r kw semi w e).
Qed.

Lemma C30_rec_proof : forall primops root s dg,
  vla primops root = Ok s -> d_kind dg = DK_ExtraRecursive ->
  (In dg (v_diags s) <->
   exists sc n i r bd kw st dy names, visit (prelude primops) root sc n /\
     opens n = Some (Binds (NAttrs i r bd (Some kw) st dy) names) /\ (forall x v, ~ refers sc n x v) /\
     dg = d_tag Faded (d_fix (Fix_ (b "remove `rec` keyword") [TEdit (nrange kw) []]) (diag0 DK_ExtraRecursive (nrange kw)))).
Proof.
  intros primops root s dg H K. exact (rec_iff _ _ _ _ H K).
Qed.

Lemma C30_rec_removal_partial_proof : forall sc i r bd kw st dy,
  (forall x v, ~ refers sc (NAttrs i r bd (Some kw) st dy) x v) ->
  forall sc' v x, visit sc (NAttrs i r bd (Some kw) st dy) sc' v -> is_var v x ->
  exists sc'', visit sc (NAttrs i r bd None st dy) sc'' v /\ same_meaning x sc' sc''.
Proof.
  intros sc i r bd kw st dy. exact (rec_useless sc i r bd kw st dy).
Qed.

Lemma C30_refuted_proof : exists src root ds s dg e,
  parse src = Ok (Some root, ds) /\ map d_kind ds = [DK_DeprecatedLet] /\ vla table root = Ok s /\ v_diags s = [dg] /\
  d_kind dg = DK_ExtraRecursive /\ map f_edits (d_fixes dg) = [[e]] /\
  kind_of root = NK_ExprLegacyLet /\
  exists root2, parse (apply_edit src e) = Ok (Some root2, []) /\ kind_of root2 = NK_ExprAttrs.
Proof.
  exists (b "let { body = 1; }"). do 5 eexists.
  split; [vm_compute; reflexivity|].  do 5 (split; [vm_compute; reflexivity|]). split; [vm_compute; reflexivity|].
  eexists. split; vm_compute; reflexivity.
Qed.

Lemma C31_scopes_any : forall primops root s sc v x,
  vla primops root = Ok s -> coherent primops root -> occurs_at primops root sc v x -> unbound sc x ->
  getWithScopes s v = map nid (withs sc).
Proof.
  intros primops root s sc v x H C O U. exact (withscopes _ _ _ _ _ _ H C O U).
Qed.

Lemma C31_scopes_proof : forall src ds primops root s sc v x,
  parse src = Ok (Some root, ds) ->
  vla primops root = Ok s -> occurs_at primops root sc v x -> unbound sc x ->
  getWithScopes s v = map nid (withs sc).
Proof.
  intros *. intros HP. pose proof (parse_coherent _ _ _ primops HP).
  intros. eapply C31_scopes_any; eauto.
Qed.

Lemma C31_none_when_bound_any : forall primops root s sc v x l t,
  vla primops root = Ok s -> coherent primops root -> occurs_at primops root sc v x -> bound sc x (l :: t) ->
  getWithScopes s v = [].
Proof.
  intros primops root s sc v x l t H C O B. apply (withscopes_bound _ _ _ _ _ _ H C O). intros U.
  destruct (bound_split _ _ _ B) as (pre & l0 & t0 & -> & E & _ & D). injection E as <- <-.
  apply (U l); auto. apply in_app_iff. right. now left.
Qed.

Lemma C31_none_when_bound_proof : forall src ds primops root s sc v x l t,
  parse src = Ok (Some root, ds) ->
  vla primops root = Ok s -> occurs_at primops root sc v x -> bound sc x (l :: t) ->
  getWithScopes s v = [].
Proof.
  intros *. intros HP. pose proof (parse_coherent _ _ _ primops HP).
  intros. eapply C31_none_when_bound_any; eauto.
Qed.

Lemma C34_use_of_definition_proof : forall primops root s v d,
  vla primops root = Ok s -> query s v = Some (Defined d) ->
  exists y, nth_error (v_defs s) d = Some y /\ In (nid v) (df_uses y).
Proof.
  intros primops root s v d H Q. exact (res_defined _ _ _ _ _ H Q).
Qed.

Lemma C34_definition_of_use_partial_any : forall primops root s d y u,
  vla primops root = Ok s -> coherent primops root ->
  nth_error (v_defs s) d = Some y -> df_src y <> DS_With -> In u (df_uses y) ->
  exists sc v x d' y', occurs_at primops root sc v x /\ nid v = u /\ query s v = Some (Defined d') /\
    nth_error (v_defs s) d' = Some y' /\ df_syn y' = df_syn y /\ df_src y' = df_src y.
Proof.
  intros primops root s d y u H C Y S I. exact (use_defined _ _ _ _ _ _ H C Y S I).
Qed.

Lemma C34_definition_of_use_partial_proof : forall src ds primops root s d y u,
  parse src = Ok (Some root, ds) ->
  vla primops root = Ok s -> nth_error (v_defs s) d = Some y -> df_src y <> DS_With -> In u (df_uses y) ->
  exists sc v x d' y', occurs_at primops root sc v x /\ nid v = u /\ query s v = Some (Defined d') /\
    nth_error (v_defs s) d' = Some y' /\ df_syn y' = df_syn y /\ df_src y' = df_src y.
Proof.
  intros *. intros HP. pose proof (parse_coherent _ _ _ primops HP).
  intros. eapply C34_definition_of_use_partial_any; eauto.
Qed.

Lemma C34_definition_of_syntax_proof : forall primops root s n d,
  vla primops root = Ok s -> toDef s n = Some d ->
  exists y nd, nth_error (v_defs s) d = Some y /\ df_syn y = Some nd /\ nid nd = nid n.
Proof.
  intros primops root s n d H Q. exact (toDef_ok _ _ _ _ _ H Q).
Qed.

Lemma C34_refuted_proof : exists src root s sc v d d' y y',
  parse src = Ok (Some root, []) /\ vla table root = Ok s /\ occurs_at table root sc v (b "x") /\
  nth_error (v_defs s) d = Some y /\ In (nid v) (df_uses y) /\
  query s v = Some (FromWith d') /\ nth_error (v_defs s) d' = Some y' /\
  option_map nid (df_syn y) <> option_map nid (df_syn y').
Proof.
  exists (b "a: with a; with a; x"), (tree (b "a: with a; with a; x")), (analysed (b "a: with a; with a; x")),
    (fst (at_ (b "a: with a; with a; x") 5)), (snd (at_ (b "a: with a; with a; x") 5)), 18, 17. do 2 eexists.
  split; [vm_compute; reflexivity|]. split; [vm_compute; reflexivity|]. split.
  { split; [apply at_visit|split]; vm_compute; try reflexivity; lia. }
  split; [vm_compute; reflexivity|]. split; [vm_compute; auto|]. split; [vm_compute; reflexivity|].
  split; [vm_compute; reflexivity|]. vm_compute. discriminate.
Qed.

Lemma lookup_found primops x : lookupGlobalPrimOpInfo primops x = Found <-> In x (map fst primops).
Proof.
  unfold lookupGlobalPrimOpInfo. pose proof (bfind_keys x primops) as E.
  destruct (bfind x primops) as [v|] eqn:F.
  - split; auto. intros _. apply bfind_in in F. apply in_map_iff. exists (x, v). auto.
  - split; [destruct (bfind (b "__" ++ x) primops); discriminate|]. intros Q. now apply E in Q.
Qed.
Lemma inherited_builtin a : checkInheritedFromBuiltin a = Ok true <->
  a_kind a = AK_InheritFrom /\ exists i r e dot path dflt ds, a_value a = NSelect i r e dot path dflt ds /\ is_var e (b "builtins").
Proof.
  unfold checkInheritedFromBuiltin. split.
  - destruct (a_kind a); try discriminate. intros H. split; auto. destruct (a_value a); try discriminate.
    destruct n; try discriminate. injection H as H. apply bytes_eqb_eq in H.
    do 7 eexists. split; [reflexivity|]. split; auto.
  - intros (-> & i & r & e & dot & path & dflt & ds & -> & Ke & Ve). destruct e; try discriminate Ke.
    rewrite (proj2 (bytes_eqb_eq _ _) Ve). reflexivity.
Qed.
Lemma constant_ok x : isBuiltinConstant x = false <-> ~ constant_member x.
Proof.
  assert (H : isBuiltinConstant x = true <-> constant_member x).
  { unfold isBuiltinConstant, constant_member, isConstant. split.
    - destruct (starts_with (b "_") x) eqn:S; [discriminate|]. intros H. apply orb_prop in H as [H|H];
        apply existsb_exists in H as (y & I & E); apply bytes_eqb_eq in E; simpl in I;
        repeat (destruct I as [<-|I]); try contradiction; try (subst x; discriminate S); try discriminate E;
        try (rewrite E; simpl; auto 20; fail); injection E as ->; simpl; auto 20.
    - simpl. intros H. repeat (destruct H as [<-|H]); try contradiction; reflexivity. }
  rewrite <- H. destruct (isBuiltinConstant x); intuition congruence.
Qed.

Lemma C69_removable_proof : forall primops root s dg,
  vla primops root = Ok s -> d_kind dg = DK_PrimOpRemovablePrefix ->
  (In dg (v_diags s) <->
   exists sc n, reached primops root sc n /\
     ((exists e dot first x, reads_builtin n e dot first x /\ In x (map fst primops) /\
        dg = d_fix (deleting (b "remove `builtins.` prefix") (somes [Some e; dot])) (diag0 DK_PrimOpRemovablePrefix (nrange e))) \/
      (exists key x, inherits_builtin n key x /\ In x (map fst primops) /\
        dg = d_fix (deleting (b "remove unnecessary inherit") [key]) (diag0 DK_PrimOpRemovablePrefix (nrange key))))).
Proof.
  intros primops root s dg H K. rewrite (hint_iff _ _ _ _ H (or_introl K)). unfold reached, reads_builtin, inherits_builtin.
  split; intros (sc & n & V & Q); exists sc, n; split; auto.
  - destruct Q as [i r e dot i1 r1 first dots dflt x E Ve Sn L|?|i r kl kwin body i1 r1 bd rc st dy x a E I C L]; [left|discriminate K|right].
    + apply lookup_found in L. exists e, dot, first, x. split; [|auto]. do 6 eexists. eauto.
    + apply lookup_found in L. apply inherited_builtin in C as (Ka & i2 & r2 & e & dot & path & dflt & ds & Ea & Ve).
      exists (a_key a), x. split; [|auto]. do 19 eexists. repeat (split; [eassumption|]). split; [reflexivity|]. eauto.
  - destruct Q as [(e & dot & first & x & (i & r & i1 & r1 & dots & dflt & E & Ve & Sn) & I & ->)|(key & x & Q & I & ->)].
    + apply lookup_found in I. eapply hi_prefix; eauto.
    + destruct Q as (i & r & kl & kwin & body & i1 & r1 & bd & rc & st & dy & a & i2 & r2 & e & dot & path & dflt & ds & E & Is & <- & Ka & Ea & Ve).
      apply lookup_found in I. eapply hi_inherit; eauto. apply inherited_builtin. split; auto. do 7 eexists. eauto.
Qed.

Lemma C69_unknown_proof : forall primops root s dg,
  vla primops root = Ok s -> d_kind dg = DK_PrimOpUnknown ->
  (In dg (v_diags s) <->
   exists sc n e dot first x, reached primops root sc n /\ reads_builtin n e dot first x /\
     ~ In x (map fst primops) /\ ~ In (b "__" ++ x) (map fst primops) /\ ~ constant_member x /\
     dg = d_arg x (diag0 DK_PrimOpUnknown (nrange first))).
Proof.
  intros primops root s dg H K. rewrite (hint_iff _ _ _ _ H (or_intror K)). unfold reached, reads_builtin. split.
  - intros (sc & n & V & Q). exists sc, n.
    destruct Q as [?|i r e dot i1 r1 first dots dflt x E Ve Sn L Bc|?]; try discriminate K.
    apply lookup_notfound in L as [L1 L2]. exists e, dot, first, x. split; auto. split; [do 6 eexists; eauto|]. rewrite <- constant_ok. auto.
  - intros (sc & n & e & dot & first & x & V & (i & r & i1 & r1 & dots & dflt & E & Ve & Sn) & L1 & L2 & Bc & ->).
    exists sc, n. split; auto. eapply hi_unknown; eauto; [now apply lookup_notfound|now apply constant_ok].
Qed.

Lemma C69_refuted_proof : exists src root s sc n e dot first,
  parse src = Ok (Some root, []) /\ vla table root = Ok s /\ reached table root sc n /\
  reads_builtin n e dot first (b "map") /\
  In (d_fix (deleting (b "remove `builtins.` prefix") (somes [Some e; dot])) (diag0 DK_PrimOpRemovablePrefix (nrange e))) (v_diags s) /\
  exists l names t, l = Binds names t /\ hd_error sc = Some l /\ declares l (b "map").
Proof.
  exists (b "let map = 1; in builtins.map map"), (tree (b "let map = 1; in builtins.map map")),
    (analysed (b "let map = 1; in builtins.map map")).
  exists (fst (at_ (b "let map = 1; in builtins.map map") 3)), (snd (at_ (b "let map = 1; in builtins.map map") 3)).
  do 3 eexists.
  split; [vm_compute; reflexivity|]. split; [vm_compute; reflexivity|]. split; [apply at_visit; vm_compute; lia|].
  split; [do 6 eexists; split; [vm_compute; reflexivity|split; [split|]; vm_compute; reflexivity]|].
  split; [vm_compute; auto 8|]. do 3 eexists. split; [reflexivity|]. split; [vm_compute; reflexivity|]. vm_compute. auto.
Qed.
