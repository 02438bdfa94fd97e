(** Proofs of the theorems stated in CompProps. *)
From Verif Require Import Base Diag LexModel LexSpec AstModel PSupModel SemaModel ParseModel ParseSpec ParseTree ParseProofs NavModel NavSpec NavProofs NavFacts VlaModel VlaSpec VlaPost VlaBase VlaProofs VlaDfs VlaMain VlaThms VlaFacts TextModel ConnModel UriModel EvalModel CompModel CompSpec CompProofs CompPath IdSpec IdProofs.

Definition field (name : bytes) : optionField := OptionField name None.
(** 31 options: a, aa, aaa, ... *)
Definition many : list optionField := map (fun k => field (repeat "a"%char (S k))) (seq 0 31).
Lemma ite_ok src root ds : parse src = Ok (Some root, ds) -> sok src root /\ NoDup (ids root) /\ isExpr (kind_of root) = true.
Proof.
  intro H. pose proof (parse_ok src) as P. rewrite H in P. destruct P as (_ & P & _). destruct (P root eq_refl) as [[k [[S _] [N _]]] X].
  auto.
Qed.
Fixpoint climb (ks : list nat) (n : node) (l : list node) : option (node * list node) :=
  match ks with
  | [] => Some (n, l)
  | k :: ks => match nth_error (present (children n)) k with Some c => climb ks c (c :: l) | None => None end
  end.
Lemma climb_chain root ks : forall n l c l', chain root n l -> climb ks n l = Some (c, l') -> chain root c l'.
Proof.
  induction ks as [|k ks IH]; intros n l c l' C H; cbn [climb] in H; [injection H as <- <-; exact C|].
  destruct (nth_error (present (children n)) k) as [d|] eqn:E; [|discriminate]. apply nth_error_In in E.
  apply (IH d (d :: l)); auto. exact (chain_up _ _ _ _ E C).
Qed.
(** no occurrence of the analysis is one of [pre] *)
Lemma skipped_test primops root pre k : vsize root < k ->
  forallb (fun p => forallb (fun q => negb (Nat.eqb (nid (snd p)) (nid q))) pre) (visits k (prelude primops) root) = true ->
  forall q sc' q', In q pre -> visit (prelude primops) root sc' q' -> nid q' <> nid q.
Proof.
  intros K F q sc' q' I V E. apply (visits_all k) in V; auto. rewrite forallb_forall in F. specialize (F _ V).
  rewrite forallb_forall in F. specialize (F q I). cbn [snd] in F. rewrite E, Nat.eqb_refl in F. discriminate.
Qed.
Definition openb (a : node) : bool := match kind_of a with NK_Inherit | NK_AttrName => false | _ => true end.
Lemma exposed_climb root ks c l : climb ks root [root] = Some (c, l) -> forallb openb l = true -> exposed root c.
Proof.
  intros H F. exists l. split; [exact (climb_chain root ks root [root] c l (chain_root root) H)|]. apply Forall_forall. intros a I.
  rewrite forallb_forall in F. specialize (F a I). unfold openb in F. destruct (kind_of a); split; congruence.
Qed.
Definition climbed (ks : list nat) (root : node) : node := match climb ks root [root] with Some (c, _) => c | None => root end.
Lemma exposed_climbed root ks : match climb ks root [root] with Some (_, l) => forallb openb l | None => false end = true -> exposed root (climbed ks root).
Proof.
  intro H. unfold climbed. destruct (climb ks root [root]) as [[c l]|] eqn:E; [|discriminate]. exact (exposed_climb root ks c l E H).
Qed.
(** a cursor at an offset of a one-line document *)
Definition cursor_node (src : bytes) (o : nat) : option node :=
  match descend (doc src) ((0, o), (0, o)) with Ok x => x | _ => None end.

Lemma C40_bounded_proof : forall r, List.length (cl_items (onCompletion r)) <= 30.
Proof.
  intro r. apply bounded.
Qed.

Lemma C40_sound_proof : forall r x, In x (cl_items (onCompletion r)) ->
  exists y, may_complete r y /\ (x = y \/ x = y ++ b " (example)" \/ x = y ++ b " (default)").
Proof.
  exact proposed.
Qed.

Lemma C40_partial_proof : forall r x, may_complete r x ->
  (forall clients prefix fields, r = AtAttrs clients prefix -> In (Some fields) clients -> matching prefix fields <= 30) ->
  offered (onCompletion r) x \/ cl_isIncomplete (onCompletion r) = true.
Proof.
  exact flagged.
Qed.

Lemma C40_refuted_proof : exists r x, may_complete r x /\ ~ offered (onCompletion r) x /\ cl_isIncomplete (onCompletion r) = false /\
  List.length (cl_items (onCompletion r)) = 30.
Proof.
  exists (AtAttrs [Some many] (b "a")), (repeat "a"%char 31). split; [|split; [|split]].
  - exists many, (field (repeat "a"%char 31)). split; [now left|]. split; [|split; [reflexivity|exists (repeat "a"%char 30); reflexivity]].
    unfold many. apply in_map_iff. exists 30. split; [reflexivity|]. apply in_seq. lia.
  - assert (T : forallb (fun y => negb (existsb (bytes_eqb y) (cl_items (onCompletion (AtAttrs [Some many] (b "a"))))))
       [repeat "a"%char 31; repeat "a"%char 31 ++ b " (example)"; repeat "a"%char 31 ++ b " (default)"] = true) by (vm_compute; reflexivity).
    rewrite forallb_forall in T.
    assert (K : forall y, In y [repeat "a"%char 31; repeat "a"%char 31 ++ b " (example)"; repeat "a"%char 31 ++ b " (default)"] ->
       ~ In y (cl_items (onCompletion (AtAttrs [Some many] (b "a"))))).
    { intros y I J. specialize (T y I). apply negb_true_iff in T. rewrite (proj2 (existsb_exists _ _)) in T; [discriminate|].
      exists y. split; [exact J|now apply bytes_eqb_eq]. }
    intros [H|[H|H]]; revert H; apply K; [now left|right; now left|right; right; now left].
  - vm_compute. reflexivity.
  - vm_compute. reflexivity.
Qed.

Lemma C41_sound_any : forall primops root s m sc v x, vla primops root = Ok s -> coherent primops root ->
  parents root = Ok m -> occurs_at primops root sc v x ->
  exists l cut, completeScope s m v [] = Ok (l, cut) /\
    forall y, In y l -> (exists layer, In layer sc /\ declares layer y) /\ exists rest, y = x ++ rest.
Proof.
  intros primops root s m sc v x H C P [V [_ <-]]. destruct (env_at _ _ _ _ _ H C V) as (e & E & R).
  unfold completeScope. rewrite (upEnv_at _ _ _ _ E). cbn [bind]. destruct (collectDef e (varName v) []) as [l cut] eqn:D.
  exists l, cut. split; [reflexivity|]. intros y I.
  destruct (adds_collect (varName v) e [] ltac:(simpl; lia)) as (_ & _ & _ & S). rewrite D in S. apply S in I. cbn [app] in I.
  apply env_names_in in I. destruct I as (f & d & I1 & I2 & I3 & _). split; [|exact I3]. apply (rep_names _ _ _ R). eauto.
Qed.

Lemma C41_sound_proof : forall src ds primops root s m sc v x,
  parse src = Ok (Some root, ds) -> vla primops root = Ok s -> parents root = Ok m -> occurs_at primops root sc v x ->
  exists l cut, completeScope s m v [] = Ok (l, cut) /\
    forall y, In y l -> (exists layer, In layer sc /\ declares layer y) /\ exists rest, y = x ++ rest.
Proof.
  intros *. intros HP. pose proof (parse_coherent _ _ _ primops HP).
  intros. eapply C41_sound_any; eauto.
Qed.

Lemma C41_complete_partial_any : forall primops root s m sc v x layer y, vla primops root = Ok s -> coherent primops root ->
  parents root = Ok m -> occurs_at primops root sc v x -> In layer sc -> declares layer y -> (exists rest, y = x ++ rest) ->
  ~ (exists rest, y = b "__" ++ rest) ->
  exists l cut, completeScope s m v [] = Ok (l, cut) /\ (In y l \/ (cut = true /\ List.length l = 30)).
Proof.
  intros primops root s m sc v x layer y H C P [V [_ <-]] I D Px Un. destruct (env_at _ _ _ _ _ H C V) as (e & E & R).
  unfold completeScope. rewrite (upEnv_at _ _ _ _ E). cbn [bind]. destruct (collectDef e (varName v) []) as [l cut] eqn:Dl.
  exists l, cut. split; [reflexivity|].
  pose proof (collect_cut (varName v) e [] ltac:(simpl; lia)) as K.
  destruct (adds_collect (varName v) e [] ltac:(simpl; lia)) as (_ & _ & S & _). rewrite Dl in S, K. cbn [fst snd] in S, K. destruct cut; [right; auto|left].
  rewrite S by reflexivity. cbn [app]. apply env_names_in.
  destruct (proj1 (rep_names _ _ _ R y)) as (f & d & Hf & Hd); [eauto|]. exists f, d. auto.
Qed.

Lemma C41_complete_partial_proof : forall src ds primops root s m sc v x layer y,
  parse src = Ok (Some root, ds) -> vla primops root = Ok s -> parents root = Ok m -> occurs_at primops root sc v x -> In layer sc -> declares layer y -> (exists rest, y = x ++ rest) ->
  ~ (exists rest, y = b "__" ++ rest) ->
  exists l cut, completeScope s m v [] = Ok (l, cut) /\ (In y l \/ (cut = true /\ List.length l = 30)).
Proof.
  intros *. intros HP. pose proof (parse_coherent _ _ _ primops HP).
  intros. eapply C41_complete_partial_any; eauto.
Qed.

Lemma C41_refuted_proof : exists src root s m sc v x layer y,
  parse src = Ok (Some root, []) /\ vla table root = Ok s /\ parents root = Ok m /\ occurs_at table root sc v x /\
  In layer sc /\ declares layer y /\ (exists rest, y = x ++ rest) /\ completeScope s m v [] = Ok ([], false).
Proof.
  set (src := b "let __foo = 1; in __fo").
  exists src, (tree src), (analysed src), (match parents (tree src) with Ok m => m | _ => [] end), (fst (at_ src 2)), (snd (at_ src 2)), (b "__fo").
  do 2 eexists. split; [vm_compute; reflexivity|]. split; [vm_compute; reflexivity|]. split; [vm_compute; reflexivity|].
  split; [split; [apply at_visit|split]; vm_compute; try reflexivity; lia|].
  split; [vm_compute; left; reflexivity|]. split; [cbn [declares]; vm_compute; left; reflexivity|]. split; [exists (b "o"); reflexivity|]. vm_compute. reflexivity.
Qed.

Lemma C41_skipped_any : forall primops root s m v, vla primops root = Ok s -> coherent primops root -> identified root ->
  parents root = Ok m -> node_of root v ->
  exists l, chain root v l /\ forall inner p outer sc, l = inner ++ p :: outer ->
    (forall q sc' q', In q inner -> visit (prelude primops) root sc' q' -> nid q' <> nid q) ->
    visit (prelude primops) root sc p ->
    exists names cut, completeScope s m v [] = Ok (names, cut) /\
      (forall y, In y names -> (exists layer, In layer sc /\ declares layer y) /\ exists rest, y = varName v ++ rest) /\
      (forall y layer, In layer sc -> declares layer y -> (exists rest, y = varName v ++ rest) ->
        ~ (exists rest, y = b "__" ++ rest) -> In y names \/ (cut = true /\ List.length names = 30)).
Proof.
  intros primops root s m v H C Id P N. destruct (upEnv_nearest _ _ _ _ _ H C Id P N) as (l & Ch & L).
  exists l. split; [exact Ch|]. intros pre p post sc Q F V. destruct (L pre p post sc Q F V) as (e & E & R).
  unfold completeScope. rewrite E. cbn [bind]. destruct (collectDef e (varName v) []) as [names cut] eqn:D.
  exists names, cut. split; [reflexivity|]. split.
  - intros y I. destruct (adds_collect (varName v) e [] ltac:(simpl; lia)) as (_ & _ & _ & S). rewrite D in S. apply S in I. cbn [app] in I.
    apply env_names_in in I. destruct I as (f & d & I1 & I2 & I3 & _). split; [|exact I3]. apply (rep_names _ _ _ R). eauto.
  - intros y layer I Dy Px Un. pose proof (collect_cut (varName v) e [] ltac:(simpl; lia)) as K.
    destruct (adds_collect (varName v) e [] ltac:(simpl; lia)) as (_ & _ & S & _). rewrite D in S, K. cbn [fst snd] in S, K. destruct cut; [right; auto|left].
    rewrite S by reflexivity. cbn [app]. apply env_names_in.
    destruct (proj1 (rep_names _ _ _ R y)) as (f & d & Hf & Hd); [eauto|]. exists f, d. auto.
Qed.

Lemma C41_skipped_proof : forall src ds primops root s m v,
  parse src = Ok (Some root, ds) -> vla primops root = Ok s -> parents root = Ok m -> node_of root v ->
  exists l, chain root v l /\ forall inner p outer sc, l = inner ++ p :: outer ->
    (forall q sc' q', In q inner -> visit (prelude primops) root sc' q' -> nid q' <> nid q) ->
    visit (prelude primops) root sc p ->
    exists names cut, completeScope s m v [] = Ok (names, cut) /\
      (forall y, In y names -> (exists layer, In layer sc /\ declares layer y) /\ exists rest, y = varName v ++ rest) /\
      (forall y layer, In layer sc -> declares layer y -> (exists rest, y = varName v ++ rest) ->
        ~ (exists rest, y = b "__" ++ rest) -> In y names \/ (cut = true /\ List.length names = 30)).
Proof.
  intros *. intros HP. pose proof (parse_coherent _ _ _ primops HP). pose proof (parse_identified _ _ _ HP).
  intros. eapply C41_skipped_any; eauto.
Qed.

Lemma C42_path_any : forall src root ds u, parse src = Ok (Some root, ds) -> identified root -> node_of root u ->
  kind_of u = NK_ExprAttrs -> exists p, path_of root u p /\ forall p', path_of root u p' -> p' = p.
Proof.
  intros src root ds u H Id N K. destruct (ite_ok _ _ _ H) as (S & D & X). destruct (parents_ok root) as (m & Pm & _).
  destruct (path_ex src root m S D X Id Pm u N K) as [p Hp]. exists p. split; [exact Hp|]. intros p' Hp'. symmetry.
  exact (path_fun src root S D u p Hp K p' Hp').
Qed.

Lemma C42_path_proof : forall src root ds u, parse src = Ok (Some root, ds) -> node_of root u ->
  kind_of u = NK_ExprAttrs -> exists p, path_of root u p /\ forall p', path_of root u p' -> p' = p.
Proof.
  intros *. intros HP. pose proof (parse_identified _ _ _ HP).
  intros. eapply C42_path_any; eauto.
Qed.

Lemma C42_name_partial_any : forall src root ds m u p ap b0 x after n, parse src = Ok (Some root, ds) -> identified root ->
  parents root = Ok m -> exposed root u -> path_of root u p ->
  path_in u ap -> (exists i r dots, ap = NAttrPath i r (b0 ++ x :: after) dots) ->
  n = x \/ In n (present (children x)) ->
  findAttrPath m n = Ok (found (p ++ b0 ++ [x]) []).
Proof.
  intros src root ds m u p ap b0 x after n H Id Pm [l [C O]] Hp (i & r & v & eq & k & t & bs & i2 & r2 & kw & st & dy & -> & I) (j & q & dots & ->) Hn.
  destruct (ite_ok _ _ _ H) as (S & D & X).
  eapply (at_name src root m S D X Id Pm i2 r2 k t bs kw st dy l p C O Hp i r j q _ dots v eq I b0 x after eq_refl n Hn).
Qed.

Lemma C42_name_partial_proof : forall src root ds m u p ap b0 x after n, parse src = Ok (Some root, ds) -> parents root = Ok m -> exposed root u -> path_of root u p ->
  path_in u ap -> (exists i r dots, ap = NAttrPath i r (b0 ++ x :: after) dots) ->
  n = x \/ In n (present (children x)) ->
  findAttrPath m n = Ok (found (p ++ b0 ++ [x]) []).
Proof.
  intros *. intros HP. pose proof (parse_identified _ _ _ HP).
  intros. eapply C42_name_partial_any; eauto.
Qed.

Lemma C42_dot_partial_any : forall src root ds m u p ap b0 x after di dr nx, parse src = Ok (Some root, ds) -> identified root ->
  parents root = Ok m -> exposed root u -> path_of root u p ->
  path_in u ap -> (exists i r dots, ap = NAttrPath i r (b0 ++ x :: after) dots /\ In (NDot di dr (nid x) nx) dots) ->
  findAttrPath m (NDot di dr (nid x) nx) = Ok (found (p ++ b0 ++ [x]) [[]]).
Proof.
  intros src root ds m u p ap b0 x after di dr nx H Id Pm [l [C O]] Hp (i & r & v & eq & k & t & bs & i2 & r2 & kw & st & dy & -> & I) (j & q & dots & -> & Hd).
  destruct (ite_ok _ _ _ H) as (S & D & X).
  exact (at_dot src root m S D X Id Pm i2 r2 k t bs kw st dy l p C O Hp i r j q _ dots v eq I b0 x after eq_refl _ di dr nx eq_refl Hd).
Qed.

Lemma C42_dot_partial_proof : forall src root ds m u p ap b0 x after di dr nx, parse src = Ok (Some root, ds) -> parents root = Ok m -> exposed root u -> path_of root u p ->
  path_in u ap -> (exists i r dots, ap = NAttrPath i r (b0 ++ x :: after) dots /\ In (NDot di dr (nid x) nx) dots) ->
  findAttrPath m (NDot di dr (nid x) nx) = Ok (found (p ++ b0 ++ [x]) [[]]).
Proof.
  intros *. intros HP. pose proof (parse_identified _ _ _ HP).
  intros. eapply C42_dot_partial_any; eauto.
Qed.

Lemma C42_set_partial_any : forall src root ds m i2 r2 k t bs kw st dy p n, parse src = Ok (Some root, ds) -> identified root ->
  parents root = Ok m ->
  let u := AstModel.NAttrs i2 r2 (Some (NBinds k t bs)) kw st dy in
  exposed root u -> path_of root u p ->
  n = u \/ n = NBinds k t bs \/ (In n bs /\ kind_of n = NK_Binding) ->
  findAttrPath m n = Ok (found p [[]]).
Proof.
  intros src root ds m i2 r2 k t bs kw st dy p n H Id Pm u [l [C O]] Hp Hn.
  destruct (ite_ok _ _ _ H) as (S & D & X).
  exact (at_set src root m S D X Id Pm i2 r2 k t bs kw st dy l p C O Hp n Hn).
Qed.

Lemma C42_set_partial_proof : forall src root ds m i2 r2 k t bs kw st dy p n, parse src = Ok (Some root, ds) -> parents root = Ok m ->
  let u := AstModel.NAttrs i2 r2 (Some (NBinds k t bs)) kw st dy in
  exposed root u -> path_of root u p ->
  n = u \/ n = NBinds k t bs \/ (In n bs /\ kind_of n = NK_Binding) ->
  findAttrPath m n = Ok (found p [[]]).
Proof.
  intros *. intros HP. pose proof (parse_identified _ _ _ HP).
  intros. eapply C42_set_partial_any; eauto.
Qed.

Lemma C42_query_proof : forall m n path, findAttrPath m n = Ok (FOK path) -> path <> [] -> path <> [b "config"] ->
  exists scope prefix, attrPathQuery m n = Ok (Some (scope, prefix)) /\
    (path = scope ++ [prefix] /\ hd_error path <> Some (b "config") \/ path = b "config" :: scope ++ [prefix]).
Proof.
  intros m n path H N1 N2. unfold attrPathQuery, findAttrPathForOptions. rewrite H. cbn [bind].
  destruct path as [|x path]; [congruence|]. destruct (bytes_eqb x (b "config")) eqn:E.
  - apply bytes_eqb_eq in E. subst x. destruct path as [|y l] using rev_ind; [congruence|]. rewrite rev_app_distr. cbn [rev app].
    exists (rev (rev l)), y. split; [reflexivity|]. right. now rewrite rev_involutive.
  - destruct (exists_last N1) as (l & y & El). rewrite El, rev_app_distr. cbn [rev app]. exists (rev (rev l)), y. split; [reflexivity|].
    left. rewrite rev_involutive. split; [reflexivity|]. rewrite <- El. intro B.
    assert (Ex : x = b "config") by (unfold hd_error in B; congruence). apply (proj1 (bytes_eqb_neq x (b "config")) E Ex).
Qed.

Lemma C42_refuted_proof :
  (exists src root m n, parse src = Ok (Some root, []) /\ parents root = Ok m /\ node_of root n /\
     findAttrPath m n = Ok (FOK [b "config"]) /\ attrPathQuery m n = Crash "back() of an empty vector") /\
  (exists src root m n, parse src = Ok (Some root, []) /\ parents root = Ok m /\ node_of root n /\
     findAttrPath m n = Crash "must have corresbonding value").
Proof.
  split.
  - set (src := b "{ config = 1; }"). exists src, (doc src), (match parents (doc src) with Ok m => m | _ => [] end), (nth 5 (all_nodes (nsize (doc src)) (doc src)) (doc src)).
    split; [vm_compute; reflexivity|]. split; [vm_compute; reflexivity|]. split; [|split; vm_compute; reflexivity].
    apply (all_nodes_sound (nsize (doc src))), nth_In. vm_compute. lia.
  - set (src := b "{ ${ { x = 1; } } = 2; }"). exists src, (doc src), (match parents (doc src) with Ok m => m | _ => [] end), (nth 11 (all_nodes (nsize (doc src)) (doc src)) (doc src)).
    split; [vm_compute; reflexivity|]. split; [vm_compute; reflexivity|]. split; [|vm_compute; reflexivity].
    apply (all_nodes_sound (nsize (doc src))), nth_In. vm_compute. lia.
Qed.
