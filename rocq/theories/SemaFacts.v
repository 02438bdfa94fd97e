(** Proofs of the theorems stated in SemaProps. *)
From Verif Require Import Base Diag LexModel AstModel PSupModel SemaModel ParseModel ParseSpec SemaSpec SemaProofs SemaDyn IdProofs DocSpec DocBase DocProofs.

(** what the analysis of a binding list does *)
Lemma analysis r bd rc s n s' : onExprAttrs r bd rc s = Ok (n, s') -> literals_tidy (bindings bd) ->
  exists st news, set_of n = Some st /\ diags (plex s') = news ++ diags (plex s) /\
    run_ (items (bindings bd)) [] st news /\ dynamic_names (items (bindings bd)) news.
Proof.
  intros H L. unfold onExprAttrs in H. apply bind_ok in H as (sa & s1 & E & H). apply bind_ok in H as (i & s2 & E2 & H).
  injection H as <- <-. injection E2 as _ <-.
  destruct (lowerBinds_run _ _ _ _ _ E tidy_nil L) as (news & S1 & R & D).
  exists (sa_static sa), news. split; [reflexivity|]. split; [exact S1|]. auto.
Qed.
Definition doc (src : bytes) : node :=
  match parse src with Ok (Some n, _) => n | _ => NMisc 0 (point (mkCur 0 0 0)) end.
Definition body_of (n : node) : option node := match n with NAttrs _ _ bd _ _ _ => bd | _ => None end.
Definition st0 : pst := pinit (b "").
(** a computed test for tidy tables *)
Fixpoint inc (xs : list bytes) : bool :=
  match xs with x :: (y :: _) as r => bytes_ltb x y && inc r | _ => true end.
Lemma inc_sorted xs : (match xs with x :: (y :: _) as r => bytes_ltb x y && inc r | _ => true end) = true -> increasing xs.
Proof.
  unfold increasing. induction xs as [|x [|y r] IH]; intros H; [constructor|repeat constructor|].
  apply andb_prop in H as [H1 H2]. specialize (IH ltac:(destruct r; auto)). constructor; auto. constructor; auto.
  inversion IH; subst. eapply Forall_impl; [|eassumption]. simpl. intros z Hz. eapply ltb_trans; eauto.
Qed.
Fixpoint tidyb (k : nat) (st : table) : bool :=
  match k with
  | 0 => false
  | S k => inc (map fst st) &&
      forallb (fun e => match a_kind (snd e), set_of (a_value (snd e)) with
                        | AK_Plain, Some st' => tidyb k st' | _, Some _ => false | _, None => true end) st
  end.
Lemma tidyb_ok k : forall st, tidyb k st = true -> tidy st.
Proof.
  induction k as [|k IH]; simpl; intros st H; [discriminate|]. apply andb_prop in H as [H1 H2]. rewrite forallb_forall in H2.
  constructor.
  - apply inc_sorted. destruct (map fst st) as [|x [|y l]]; auto.
  - intros x a I K. specialize (H2 _ I). simpl in H2. destruct (a_kind a), (set_of (a_value a)); congruence.
  - intros x a st' I E. specialize (H2 _ I). simpl in H2. rewrite E in H2. destruct (a_kind a); try discriminate. auto.
Qed.
Lemma literals_test bs :
  forallb (fun it => match it with Bound _ (Some v) => match set_of v with Some st => tidyb 9 st | None => true end | _ => true end) (items bs) = true ->
  literals_tidy bs.
Proof.
  intros H names v st I E. rewrite forallb_forall in H. specialize (H _ I). cbv beta iota in H. rewrite E in H. exact (tidyb_ok _ _ H).
Qed.
Fixpoint uniqb (l : list nat) : bool :=
  match l with [] => true | x :: l' => negb (existsb (Nat.eqb x) l') && uniqb l' end.

(** ** one set, one list of formals, one argument *)
Lemma C23_unique_any : forall r bd rc s n s', onExprAttrs r bd rc s = Ok (n, s') -> literals_tidy (bindings bd) ->
  exists st, set_of n = Some st /\ tidy st /\ NoDup (map fst st) /\
    forall p key k key' k', attr_at st p key k -> attr_at st p key' k' -> key = key' /\ k = k'.
Proof.
  intros r bd rc s n s' H L. unfold onExprAttrs in H. apply bind_ok in H as (sa & s1 & E & H).
  apply bind_ok in H as (i & s2 & E2 & H). injection H as <- <-. destruct (lowerBinds_run _ _ _ _ _ E tidy_nil L) as (news & _ & R & _).
  pose proof (r_tidy _ _ _ _ R) as T.
  exists (sa_static sa). split; [reflexivity|]. split; auto. split; [apply sorted_nodup, tidy_sorted; auto|].
  intros p key k key' k' H H'. eapply attr_at_fun; eauto.
Qed.

Lemma C23_first_wins_any : forall r bd rc s n s' st, onExprAttrs r bd rc s = Ok (n, s') -> literals_tidy (bindings bd) ->
  set_of n = Some st ->
  (forall x key k, attr_at st [x] key k ->
     exists pre it post, items (bindings bd) = pre ++ it :: post /\ declares_attr it [x] key k /\
       forall it' key' k', In it' pre -> declares_attr it' [x] key' k' -> k' = AMissing) /\
  forall x it key k, In it (items (bindings bd)) -> declares_attr it [x] key k -> k <> AMissing ->
    exists key' k', attr_at st [x] key' k'.
Proof.
  intros r bd rc s n s' st H L Es. destruct (analysis _ _ _ _ _ _ H L) as (st' & news & E1 & E2 & R & _).
  assert (st' = st) by congruence. subst st'. split.
  - intros x key k A. destruct (r_first _ _ _ _ R x key k A) as [B|(_ & B)]; [now apply at_nil in B|exact B].
  - intros x it key k I D Nm. eapply r_top; eauto.
Qed.

Lemma C23_reported_any : forall r bd rc s n s', onExprAttrs r bd rc s = Ok (n, s') -> literals_tidy (bindings bd) ->
  exists news, diags (plex s') = news ++ diags (plex s) /\
    (forall d, In d news -> d_kind d = DK_DuplicatedAttrName ->
       exists pre it post p x key k key1 k1 it1, items (bindings bd) = pre ++ it :: post /\ In it1 pre /\
         declares_attr it (p ++ [x]) key k /\ declares_attr it1 (p ++ [x]) key1 k1 /\
         clashes it (p ++ [x]) k1 k /\ d = duplicate x key key1) /\
    (forall pre it post it1 p key k key1 k1, items (bindings bd) = pre ++ it :: post -> In it1 pre ->
       declares_attr it p key k -> declares_attr it1 p key1 k1 -> k1 <> AMissing -> clashes it p k1 k ->
       exists d, In d news /\ d_kind d = DK_DuplicatedAttrName).
Proof.
  intros r bd rc s n s' H L. destruct (analysis _ _ _ _ _ _ H L) as (st & news & E1 & E2 & R & _).
  exists news. split; auto. split.
  - intros d I K. destruct (r_dup _ _ _ _ R d I K) as (pre & it & post & p & x & key & k & key1 & k1 & E & D & [Z|(it1 & I1 & D1)] & C & Ed).
    + now apply at_nil in Z.
    + exists pre, it, post, p, x, key, k, key1, k1, it1. auto 8.
  - intros pre it post it1 p key k key1 k1 E I1 D D1 Nm C. eapply r_clash; eauto 6.
Qed.

Lemma C24_sound_any : forall r bd rc s n s' st p key k, onExprAttrs r bd rc s = Ok (n, s') -> literals_tidy (bindings bd) ->
  set_of n = Some st ->
  attr_at st p key k -> exists it, In it (items (bindings bd)) /\ declares_attr it p key k.
Proof.
  intros r bd rc s n s' st p key k H L Es A. destruct (analysis _ _ _ _ _ _ H L) as (st' & news & E1 & E2 & R & _).
  assert (st' = st) by congruence. subst st'. destruct (r_new _ _ _ _ R p key k A) as [B|B]; [now apply at_nil in B|exact B].
Qed.

Lemma C24_complete_any : forall r bd rc s n s' st, onExprAttrs r bd rc s = Ok (n, s') -> literals_tidy (bindings bd) ->
  set_of n = Some st ->
  exists news, diags (plex s') = news ++ diags (plex s) /\
    ((forall d, In d news -> d_kind d <> DK_DuplicatedAttrName) ->
     forall it p key k, In it (items (bindings bd)) -> declares_attr it p key k -> k <> AMissing ->
       exists key', attr_at st p key' k /\ (k <> ASet -> key' = key)).
Proof.
  intros r bd rc s n s' st H L Es. destruct (analysis _ _ _ _ _ _ H L) as (st' & news & E1 & E2 & R & _).
  assert (st' = st) by congruence. subst st'. exists news. split; auto. intros Q it p key k. exact (r_all _ _ _ _ R Q it p key k).
Qed.

Lemma C24_dynamic_any : forall r bd rc s n s', onExprAttrs r bd rc s = Ok (n, s') -> literals_tidy (bindings bd) ->
  Forall2 stands_for (flat_map own_dynamic (items (bindings bd))) (dynamic_of n).
Proof.
  intros r bd rc s n s' H L. unfold onExprAttrs in H. apply bind_ok in H as (sa & s1 & E & H). apply bind_ok in H as (i & s2 & E2 & H).
  injection H as <- <-. destruct (binds_own _ _ _ _ _ E L) as (ds & E3 & F). cbn [dynamic_of]. rewrite E3. exact F.
Qed.

Lemma C24_dynamic_nested_any : forall r bd rc s n s', onExprAttrs r bd rc s = Ok (n, s') -> literals_tidy (bindings bd) ->
  exists news, diags (plex s') = news ++ diags (plex s) /\
    ((forall d, In d news -> d_kind d <> DK_DuplicatedAttrName) ->
     forall names v p key w, In (Bound names (Some v)) (items (bindings bd)) -> path_dyn names v p key w -> dyn_at n p key w).
Proof.
  intros r bd rc s n s' H L. unfold onExprAttrs in H. apply bind_ok in H as (sa & s1 & E & H). apply bind_ok in H as (i & s2 & E2 & H).
  injection H as <- <-. injection E2 as _ <-. destruct (binds_dyn _ _ _ _ _ E tidy_nil L) as (news & S1 & _ & A).
  exists news. split; [exact S1|]. intros Q names v p key w I D. eapply dyn_same; [| |exact (A Q names v p key w I D)]; reflexivity.
Qed.

Lemma C25_lowered_any : forall r bd rc s n s' st name from x, onExprAttrs r bd rc s = Ok (n, s') ->
  literals_tidy (bindings bd) ->
  set_of n = Some st ->
  In (Inherited name from) (items (bindings bd)) -> staticName name = Some x ->
  exists news, diags (plex s') = news ++ diags (plex s) /\
    (attr_at st [x] name (match from with None => AVar x | Some e => ASelect e name end) \/
     exists d, In d news /\ d_kind d = DK_DuplicatedAttrName).
Proof.
  intros r bd rc s n s' st name from x H L Es I Sx. destruct (analysis _ _ _ _ _ _ H L) as (st' & news & E1 & E2 & R & _).
  assert (st' = st) by congruence. subst st'. exists news. split; auto.
  destruct (quiet_dec news) as [Q|Q]; [left|now right].
  destruct (r_all _ _ _ _ R Q (Inherited name from) [x] name (match from with None => AVar x | Some e => ASelect e name end) I) as (key' & A & K).
  - exists x. auto.
  - destruct from; discriminate.
  - rewrite (K ltac:(destruct from; discriminate)) in A. exact A.
Qed.

Lemma C25_already_bound_any : forall r bd rc s n s' pre name from post x it1 key1 k1, onExprAttrs r bd rc s = Ok (n, s') ->
  literals_tidy (bindings bd) ->
  items (bindings bd) = pre ++ Inherited name from :: post -> staticName name = Some x ->
  In it1 pre -> declares_attr it1 [x] key1 k1 -> k1 <> AMissing ->
  exists news d, diags (plex s') = news ++ diags (plex s) /\ In d news /\ d_kind d = DK_DuplicatedAttrName.
Proof.
  intros r bd rc s n s' pre name from post x it1 key1 k1 H L E Sx I1 D1 Nm.
  destruct (analysis _ _ _ _ _ _ H L) as (st & news & E1 & E2 & R & _).
  destruct (r_clash _ _ _ _ R pre (Inherited name from) post [x] name (match from with None => AVar x | Some e => ASelect e name end) key1 k1)
    as (d & Id & Kd); auto.
  - exists x. auto.
  - right. exists it1. auto.
  - right. right. destruct from; discriminate.
  - exists news, d. auto.
Qed.

Lemma C25_dynamic_any : forall r bd rc s n s', onExprAttrs r bd rc s = Ok (n, s') -> literals_tidy (bindings bd) ->
  exists news, diags (plex s') = news ++ diags (plex s) /\
    (forall name from, In (Inherited name from) (items (bindings bd)) -> staticName name = None ->
       exists d, In d news /\ d_kind d = DK_DynamicInherit /\ d_range d = nrange name) /\
    (forall d, In d news -> d_kind d = DK_DynamicInherit ->
       exists name from, In (Inherited name from) (items (bindings bd)) /\ staticName name = None /\ d_range d = nrange name) /\
    forall st p key k name from, set_of n = Some st -> attr_at st p key k ->
      In (Inherited name from) (items (bindings bd)) -> staticName name = None ->
      exists it, In it (items (bindings bd)) /\ it <> Inherited name from /\ declares_attr it p key k.
Proof.
  intros r bd rc s n s' H L. destruct (analysis _ _ _ _ _ _ H L) as (st & news & E1 & E2 & R & D1 & D2).
  exists news. split; auto. split; [exact D1|]. split; [exact D2|].
  intros st' p key k name from Es A I N. assert (st' = st) by congruence. subst st'.
  destruct (r_new _ _ _ _ R p key k A) as [B|(it & Ii & Di)]; [now apply at_nil in B|]. exists it. split; auto. split; auto.
  intros ->. destruct Di as (x & Z & _). congruence.
Qed.

Lemma C26_reports_any : forall src r fv s n s', onFormals src r fv s = Ok (n, s') -> forward fv ->
  exists news, diags (plex s') = rev news ++ diags (plex s) /\
    map brief news = no_comma fv ++ early_ellipsis src fv ++ empty_formal fv ++ repeated_name fv.
Proof.
  intros src r fv s n s' H Fw. destruct (proj1 (onFormals_ok _ _ _ _ _ _ H) Fw) as (news & S1 & E).
  exists (rev news). rewrite rev_involutive. auto.
Qed.

Lemma C26_names_any : forall src r fv s n s', onFormals src r fv s = Ok (n, s') ->
  NoDup (map fst (names_of n)) /\
  forall x i, In (x, i) (names_of n) <-> exists f, first_named fv x f /\ i = nid f.
Proof.
  intros src r fv s n s' H. destruct (onFormals_ok _ _ _ _ _ _ H) as (_ & N & M & _). auto.
Qed.

Lemma C26_argument_any : forall src r fv s n s' r2 i s1 a s2, onFormals src r fv s = Ok (n, s') -> NoDup (map nid fv) ->
  onLambdaArg r2 (Some i) (Some n) s1 = Ok (a, s2) ->
  exists news, diags (plex s2) = rev news ++ diags (plex s1) /\
    match find (named (text_of i)) fv with
    | Some f => map brief news = [(DK_DuplicatedFormalToArg, nrange i, [nrange f], [])]
    | None => news = []
    end.
Proof.
  intros src r fv s n s' r2 i s1 a s2 H U E. destruct (onLambdaArg_ok _ _ _ _ _ _ _ _ _ _ _ H U E) as (news & S1 & Eb).
  exists (rev news). rewrite rev_involutive. split; [exact S1|]. destruct (find _ _); [exact Eb|].
  now destruct (rev news).
Qed.

Lemma in_news {d : diag} {news new old new'} : new ++ old = rev news ++ old -> new' = news -> In d new <-> In d new'.
Proof. intros E ->. apply app_inv_tail in E. subst. now rewrite <- in_rev. Qed.

Lemma of_set src root ds d : parse src = Ok (Some root, ds) -> In d ds -> d_kind d = DK_DuplicatedAttrName \/ d_kind d = DK_DynamicInherit ->
  exists i r bd rc st dy, node_of root (NAttrs i r bd rc st dy) /\ exists s s' news,
    onExprAttrs r bd rc s = Ok (NAttrs i r bd rc st dy, s') /\ diags (plex s') = rev news ++ diags (plex s) /\ In d news.
Proof.
  intros HP I K. assert (An : about_names d = true) by (unfold about_names; now destruct K as [-> | ->]).
  destruct (doc_only _ _ _ HP d I An) as (m & news & N & B & Id). destruct m; cbn [built] in B; try (subst; destruct Id; fail).
  - destruct B as (s & s' & R & D). do 6 eexists. split; [exact N|]. exists s, s', news. auto.
  - exfalso. destruct B as (s & s' & R & D). destruct (doc_formals _ _ _ HP _ _ _ _ N) as (_ & _ & _ & _ & _ & _ & Fw & _).
    destruct (C26_reports_any _ _ _ _ _ _ R Fw) as (new & D' & E). rewrite D in D'. apply app_inv_tail in D'.
    assert (news = new) as -> by (rewrite <- (rev_involutive news), D'; apply rev_involutive).
    assert (Ib : In (brief d) (map brief new)) by now apply in_map. rewrite E in Ib.
    assert (Kb : d_kind d = DK_FormalMissingComma \/ d_kind d = DK_FormalExtraEllipsis \/ d_kind d = DK_FormalMisplacedEllipsis \/
      d_kind d = DK_EmptyFormal \/ d_kind d = DK_DuplicatedFormal).
    { clear - Ib. unfold brief in Ib. rewrite !in_app_iff in Ib.
      destruct Ib as [Ib|[Ib|[Ib|Ib]]]; apply in_flat_map in Ib as ([[pre f] post] & _ & Ib); cbv beta iota zeta in Ib.
      all: repeat match type of Ib with context [match ?x with _ => _ end] => destruct x end; cbn [In] in Ib.
      all: repeat match goal with H : _ \/ _ |- _ => destruct H | H : False |- _ => destruct H end.
      all: match goal with H : (_, _, _, _) = _ |- _ => injection H as H _ _ _; auto 8 end. }
    destruct K as [K|K]; rewrite K in Kb; intuition discriminate.
  - exfalso. destruct B as (s & s' & R & D). unfold onLambdaArg, pbind in R.
    match type of R with match ?x with _ => _ end = _ => destruct x as [[u s1]| |] eqn:E end; try discriminate.
    assert (E2 : diags (plex s') = diags (plex s1)) by (injection R as _ <-; reflexivity).
    assert (X : diags (plex s1) = diags (plex s) \/ exists d0, d_kind d0 = DK_DuplicatedFormalToArg /\ diags (plex s1) = d0 :: diags (plex s)).
    { clear - E. destruct ident as [i|]; [|injection E as _ <-; now left]. destruct formals as [f|]; [|injection E as _ <-; now left].
      destruct (dedup_at f (ident_name i)); [|injection E as _ <-; now left]. injection E as _ <-. right. eexists. split; [|reflexivity]. reflexivity. }
    rewrite E2 in D. apply in_rev in Id. destruct X as [X|(d0 & K0 & X)]; rewrite X in D.
    + symmetry in D. apply (app_inv_tail (diags (plex s)) (rev news) []) in D. rewrite D in Id. destruct Id.
    + symmetry in D. apply (app_inv_tail (diags (plex s)) (rev news) [d0]) in D. rewrite D in Id. destruct Id as [<-|[]]. rewrite K0 in K. destruct K; discriminate.
Qed.

Lemma C23_unique_proof : forall src root ds n st, parse src = Ok (Some root, ds) -> node_of root n -> set_of n = Some st ->
  tidy st /\ NoDup (map fst st) /\
  forall p key k key' k', attr_at st p key k -> attr_at st p key' k' -> key = key' /\ k = k'.
Proof.
  intros src root ds n st HP N E. destruct n; try discriminate.
  destruct (doc_action _ _ _ HP _ _ _ _ _ _ N) as (s & s' & news & R & _ & _ & L).
  destruct (C23_unique_any _ _ _ _ _ _ R L) as (st' & E' & H). rewrite E in E'. injection E' as <-. exact H.
Qed.

Lemma C23_first_wins_proof : forall src root ds i r bd rc st dy, parse src = Ok (Some root, ds) ->
  node_of root (NAttrs i r bd rc st dy) ->
  (forall x key k, attr_at st [x] key k ->
     exists pre it post, items (bindings bd) = pre ++ it :: post /\ declares_attr it [x] key k /\
       forall it' key' k', In it' pre -> declares_attr it' [x] key' k' -> k' = AMissing) /\
  forall x it key k, In it (items (bindings bd)) -> declares_attr it [x] key k -> k <> AMissing ->
    exists key' k', attr_at st [x] key' k'.
Proof.
  intros src root ds i r bd rc st dy HP N. destruct (doc_action _ _ _ HP _ _ _ _ _ _ N) as (s & s' & news & R & _ & _ & L).
  exact (C23_first_wins_any _ _ _ _ _ _ st R L eq_refl).
Qed.

Lemma C23_reported_proof : forall src root ds i r bd rc st dy, parse src = Ok (Some root, ds) ->
  node_of root (NAttrs i r bd rc st dy) ->
  exists news, in_a_row news ds /\
    (forall d, In d news -> d_kind d = DK_DuplicatedAttrName ->
       exists pre it post p x key k key1 k1 it1, items (bindings bd) = pre ++ it :: post /\ In it1 pre /\
         declares_attr it (p ++ [x]) key k /\ declares_attr it1 (p ++ [x]) key1 k1 /\
         clashes it (p ++ [x]) k1 k /\ d = duplicate x key key1) /\
    (forall pre it post it1 p key k key1 k1, items (bindings bd) = pre ++ it :: post -> In it1 pre ->
       declares_attr it p key k -> declares_attr it1 p key1 k1 -> k1 <> AMissing -> clashes it p k1 k ->
       exists d, In d news /\ d_kind d = DK_DuplicatedAttrName).
Proof.
  intros src root ds i r bd rc st dy HP N. destruct (doc_action _ _ _ HP _ _ _ _ _ _ N) as (s & s' & news & R & D & Ro & L).
  exists news. split; [exact Ro|]. destruct (C23_reported_any _ _ _ _ _ _ R L) as (new & D' & H1 & H2). rewrite D in D'. symmetry in D'.
  split; [intros d I; apply H1; now apply (in_news D' eq_refl)|].
  intros pre it post it1 p key k key1 k1 A1 A2 A3 A4 A5 A6. destruct (H2 _ _ _ _ _ _ _ _ _ A1 A2 A3 A4 A5 A6) as (d & I & K).
  exists d. split; [now apply (in_news D' eq_refl)|exact K].
Qed.

Lemma C23_only_proof : forall src root ds d, parse src = Ok (Some root, ds) -> In d ds -> d_kind d = DK_DuplicatedAttrName ->
  exists i r bd rc st dy, node_of root (NAttrs i r bd rc st dy) /\
    exists pre it post p x key k key1 k1 it1, items (bindings bd) = pre ++ it :: post /\ In it1 pre /\
      declares_attr it (p ++ [x]) key k /\ declares_attr it1 (p ++ [x]) key1 k1 /\
      clashes it (p ++ [x]) k1 k /\ d = duplicate x key key1.
Proof.
  intros src root ds d HP I K. destruct (of_set _ _ _ d HP I (or_introl K)) as (i & r & bd & rc & st & dy & N & s & s' & news & R & D & Id).
  exists i, r, bd, rc, st, dy. split; [exact N|]. pose proof (doc_literals _ _ _ HP _ _ _ _ _ _ N) as L.
  destruct (C23_reported_any _ _ _ _ _ _ R L) as (new & D' & H1 & _). rewrite D in D'. symmetry in D'. apply H1; [now apply (in_news D' eq_refl)|exact K].
Qed.

Lemma C24_sound_proof : forall src root ds i r bd rc st dy p key k, parse src = Ok (Some root, ds) ->
  node_of root (NAttrs i r bd rc st dy) ->
  attr_at st p key k -> exists it, In it (items (bindings bd)) /\ declares_attr it p key k.
Proof.
  intros src root ds i r bd rc st dy p key k HP N. destruct (doc_action _ _ _ HP _ _ _ _ _ _ N) as (s & s' & news & R & _ & _ & L).
  exact (C24_sound_any _ _ _ _ _ _ st p key k R L eq_refl).
Qed.

Lemma C24_complete_proof : forall src root ds i r bd rc st dy, parse src = Ok (Some root, ds) ->
  node_of root (NAttrs i r bd rc st dy) ->
  exists news, in_a_row news ds /\
    ((forall d, In d news -> d_kind d <> DK_DuplicatedAttrName) ->
     forall it p key k, In it (items (bindings bd)) -> declares_attr it p key k -> k <> AMissing ->
       exists key', attr_at st p key' k /\ (k <> ASet -> key' = key)).
Proof.
  intros src root ds i r bd rc st dy HP N. destruct (doc_action _ _ _ HP _ _ _ _ _ _ N) as (s & s' & news & R & D & Ro & L).
  exists news. split; [exact Ro|]. destruct (C24_complete_any _ _ _ _ _ _ st R L eq_refl) as (new & D' & H). rewrite D in D'. symmetry in D'.
  intros X. apply H. intros d I. apply X. now apply (in_news D' eq_refl).
Qed.

Lemma C24_dynamic_proof : forall src root ds i r bd rc st dy, parse src = Ok (Some root, ds) ->
  node_of root (NAttrs i r bd rc st dy) ->
  Forall2 stands_for (flat_map own_dynamic (items (bindings bd))) dy.
Proof.
  intros src root ds i r bd rc st dy HP N. destruct (doc_action _ _ _ HP _ _ _ _ _ _ N) as (s & s' & news & R & _ & _ & L).
  exact (C24_dynamic_any _ _ _ _ _ _ R L).
Qed.

Lemma C24_dynamic_nested_proof : forall src root ds i r bd rc st dy, parse src = Ok (Some root, ds) ->
  node_of root (NAttrs i r bd rc st dy) ->
  exists news, in_a_row news ds /\
    ((forall d, In d news -> d_kind d <> DK_DuplicatedAttrName) ->
     forall names v p key w, In (Bound names (Some v)) (items (bindings bd)) -> path_dyn names v p key w ->
       dyn_at (NAttrs i r bd rc st dy) p key w).
Proof.
  intros src root ds i r bd rc st dy HP N. destruct (doc_action _ _ _ HP _ _ _ _ _ _ N) as (s & s' & news & R & D & Ro & L).
  exists news. split; [exact Ro|]. destruct (C24_dynamic_nested_any _ _ _ _ _ _ R L) as (new & D' & H). rewrite D in D'. symmetry in D'.
  intros X. apply H. intros d I. apply X. now apply (in_news D' eq_refl).
Qed.

Lemma C25_lowered_proof : forall src root ds i r bd rc st dy name from x, parse src = Ok (Some root, ds) ->
  node_of root (NAttrs i r bd rc st dy) ->
  In (Inherited name from) (items (bindings bd)) -> staticName name = Some x ->
  exists news, in_a_row news ds /\
    (attr_at st [x] name (match from with None => AVar x | Some e => ASelect e name end) \/
     exists d, In d news /\ d_kind d = DK_DuplicatedAttrName).
Proof.
  intros src root ds i r bd rc st dy name from x HP N A1 A2. destruct (doc_action _ _ _ HP _ _ _ _ _ _ N) as (s & s' & news & R & D & Ro & L).
  exists news. split; [exact Ro|]. destruct (C25_lowered_any _ _ _ _ _ _ st _ _ _ R L eq_refl A1 A2) as (new & D' & [H|(d & I & K)]); [now left|].
  rewrite D in D'. symmetry in D'. right. exists d. split; [now apply (in_news D' eq_refl)|exact K].
Qed.

Lemma C25_already_bound_proof : forall src root ds i r bd rc st dy pre name from post x it1 key1 k1,
  parse src = Ok (Some root, ds) -> node_of root (NAttrs i r bd rc st dy) ->
  items (bindings bd) = pre ++ Inherited name from :: post -> staticName name = Some x ->
  In it1 pre -> declares_attr it1 [x] key1 k1 -> k1 <> AMissing ->
  exists news d, in_a_row news ds /\ In d news /\ d_kind d = DK_DuplicatedAttrName.
Proof.
  intros src root ds i r bd rc st dy pre name from post x it1 key1 k1 HP N A1 A2 A3 A4 A5.
  destruct (doc_action _ _ _ HP _ _ _ _ _ _ N) as (s & s' & news & R & D & Ro & L).
  destruct (C25_already_bound_any _ _ _ _ _ _ _ _ _ _ _ _ _ _ R L A1 A2 A3 A4 A5) as (new & d & D' & I & K).
  rewrite D in D'. symmetry in D'. exists news, d. split; [exact Ro|]. split; [now apply (in_news D' eq_refl)|exact K].
Qed.

Lemma C25_dynamic_proof : forall src root ds i r bd rc st dy, parse src = Ok (Some root, ds) ->
  node_of root (NAttrs i r bd rc st dy) ->
  exists news, in_a_row news ds /\
    (forall name from, In (Inherited name from) (items (bindings bd)) -> staticName name = None ->
       exists d, In d news /\ d_kind d = DK_DynamicInherit /\ d_range d = nrange name) /\
    (forall d, In d news -> d_kind d = DK_DynamicInherit ->
       exists name from, In (Inherited name from) (items (bindings bd)) /\ staticName name = None /\ d_range d = nrange name) /\
    forall p key k name from, attr_at st p key k ->
      In (Inherited name from) (items (bindings bd)) -> staticName name = None ->
      exists it, In it (items (bindings bd)) /\ it <> Inherited name from /\ declares_attr it p key k.
Proof.
  intros src root ds i r bd rc st dy HP N. destruct (doc_action _ _ _ HP _ _ _ _ _ _ N) as (s & s' & news & R & D & Ro & L).
  exists news. split; [exact Ro|]. destruct (C25_dynamic_any _ _ _ _ _ _ R L) as (new & D' & H1 & H2 & H3). rewrite D in D'. symmetry in D'.
  split; [|split].
  - intros name from A1 A2. destruct (H1 _ _ A1 A2) as (d & I & K). exists d. split; [now apply (in_news D' eq_refl)|exact K].
  - intros d I. apply H2. now apply (in_news D' eq_refl).
  - intros p key k name from A1 A2 A3. exact (H3 _ _ _ _ _ _ eq_refl A1 A2 A3).
Qed.

Lemma C25_only_proof : forall src root ds d, parse src = Ok (Some root, ds) -> In d ds -> d_kind d = DK_DynamicInherit ->
  exists i r bd rc st dy name from, node_of root (NAttrs i r bd rc st dy) /\
    In (Inherited name from) (items (bindings bd)) /\ staticName name = None /\ d_range d = nrange name.
Proof.
  intros src root ds d HP I K. destruct (of_set _ _ _ d HP I (or_intror K)) as (i & r & bd & rc & st & dy & N & s & s' & news & R & D & Id).
  pose proof (doc_literals _ _ _ HP _ _ _ _ _ _ N) as L.
  destruct (C25_dynamic_any _ _ _ _ _ _ R L) as (new & D' & _ & H1 & _). rewrite D in D'. symmetry in D'.
  destruct (H1 d) as (name & from & H); [now apply (in_news D' eq_refl)|exact K|]. exists i, r, bd, rc, st, dy, name, from. auto.
Qed.

Lemma C26_reports_proof : forall src root ds i r fv d, parse src = Ok (Some root, ds) -> node_of root (NFormals i r fv d) ->
  exists news, in_a_row news ds /\
    map brief news = no_comma fv ++ early_ellipsis src fv ++ empty_formal fv ++ repeated_name fv.
Proof.
  intros src root ds i r fv d HP N. destruct (doc_formals _ _ _ HP _ _ _ _ N) as (s & s' & news & R & D & Ro & F & _).
  destruct (C26_reports_any _ _ _ _ _ _ R F) as (new & D' & E). rewrite D in D'. apply app_inv_tail in D'.
  exists news. split; [exact Ro|]. rewrite <- E. f_equal. rewrite <- (rev_involutive news), D'. apply rev_involutive.
Qed.

Lemma C26_names_proof : forall src root ds i r fv d, parse src = Ok (Some root, ds) -> node_of root (NFormals i r fv d) ->
  NoDup (map fst d) /\
  forall x j, In (x, j) d <-> exists f, first_named fv x f /\ j = nid f.
Proof.
  intros src root ds i r fv d HP N. destruct (doc_formals _ _ _ HP _ _ _ _ N) as (s & s' & news & R & D & Ro & F & _).
  exact (C26_names_any _ _ _ _ _ _ R).
Qed.

Lemma C26_argument_proof : forall src root ds ai ar i fi r fv d, parse src = Ok (Some root, ds) ->
  node_of root (NLambdaArg ai ar (Some i) (Some (NFormals fi r fv d))) ->
  exists news, in_a_row news ds /\
    match find (named (text_of i)) fv with
    | Some f => map brief news = [(DK_DuplicatedFormalToArg, nrange i, [nrange f], [])]
    | None => news = []
    end.
Proof.
  intros src root ds ai ar i fi r fv d HP N.
  assert (Nf : node_of root (NFormals fi r fv d)) by (eapply doc_child; [exact N|right; left; reflexivity]).
  destruct (doc_formals _ _ _ HP _ _ _ _ Nf) as (s & s' & n0 & R & _ & _ & _ & U).
  destruct (doc_argument _ _ _ HP _ _ _ _ N) as (s1 & s2 & news & R2 & D & Ro).
  destruct (C26_argument_any _ _ _ _ _ _ _ _ _ _ _ R U R2) as (new & D' & E). rewrite D in D'. apply app_inv_tail in D'.
  assert (news = new) as -> by (rewrite <- (rev_involutive news), D'; apply rev_involutive). exists new. auto.
Qed.

Lemma C26_only_proof : forall src root ds d, parse src = Ok (Some root, ds) -> In d ds ->
  In (d_kind d) [DK_FormalMissingComma; DK_FormalExtraEllipsis; DK_FormalMisplacedEllipsis; DK_EmptyFormal; DK_DuplicatedFormal;
                 DK_DuplicatedFormalToArg] ->
  (exists i r fv dd, node_of root (NFormals i r fv dd) /\
     In (brief d) (no_comma fv ++ early_ellipsis src fv ++ empty_formal fv ++ repeated_name fv)) \/
  (exists ai ar i fi r fv dd f, node_of root (NLambdaArg ai ar (Some i) (Some (NFormals fi r fv dd))) /\
     find (named (text_of i)) fv = Some f /\ brief d = (DK_DuplicatedFormalToArg, nrange i, [nrange f], [])).
Proof.
  intros src root ds d HP I K. assert (An : about_names d = true).
  { unfold about_names. cbn [In] in K. repeat (destruct K as [K|K]; [now rewrite <- K|]). destruct K. }
  destruct (doc_only _ _ _ HP d I An) as (m & news & N & B & Id). destruct m; cbn [built] in B; try (subst; destruct Id; fail).
  - (* a set *)
    exfalso. destruct B as (s & s' & R & D). destruct (a_sets _ _ _ _ _ _ R) as (new & D' & F). rewrite D in D'. symmetry in D'.
    rewrite Forall_forall in F. specialize (F d ltac:(now apply (in_news D' eq_refl))). cbn [In] in K.
    destruct F as [F|[F|F]]; rewrite F in K; repeat (destruct K as [K|K]; [discriminate K|]); destruct K.
  - (* formals *)
    left. destruct B as (s & s' & R & D). destruct (doc_formals _ _ _ HP _ _ _ _ N) as (_ & _ & _ & _ & _ & _ & Fw & _).
    destruct (C26_reports_any _ _ _ _ _ _ R Fw) as (new & D' & E). rewrite D in D'. apply app_inv_tail in D'.
    assert (news = new) as -> by (rewrite <- (rev_involutive news), D'; apply rev_involutive).
    do 4 eexists. split; [exact N|]. rewrite <- E. now apply in_map.
  - (* an argument *)
    right. destruct B as (s & s' & R & D).
    assert (Ch : forall f, formals = Some f -> node_of root f).
    { intros f ->. eapply doc_child; [exact N|]. cbn [children]. unfold present. cbn [flat_map]. apply in_or_app. right. left. reflexivity. }
    assert (Nil : diags (plex s') = diags (plex s) -> False).
    { intros E. rewrite E in D. symmetry in D. apply (app_inv_tail (diags (plex s)) (rev news) []) in D. apply in_rev in Id. rewrite D in Id. destruct Id. }
    pose proof R as R0. unfold onLambdaArg, pbind in R0.
    destruct ident as [i|]; [|exfalso; apply Nil; now injection R0 as _ <-].
    destruct formals as [f|]; [|exfalso; apply Nil; now injection R0 as _ <-].
    destruct f; try (exfalso; apply Nil; now injection R0 as _ <-). clear R0.
    pose proof (Ch _ eq_refl) as Nf. destruct (doc_formals _ _ _ HP _ _ _ _ Nf) as (s0 & s0' & n0 & Rf & _ & _ & _ & U).
    destruct (C26_argument_any _ _ _ _ _ _ _ _ _ _ _ Rf U R) as (new & D' & E). rewrite D in D'. apply app_inv_tail in D'.
    assert (news = new) as -> by (rewrite <- (rev_involutive news), D'; apply rev_involutive).
    destruct (find _ _) as [g|] eqn:Eg; [|subst; destruct Id]. do 8 eexists. split; [exact N|]. split; [exact Eg|].
    assert (Ib : In (brief d) (map brief new)) by now apply in_map. rewrite E in Ib. now destruct Ib as [<-|[]].
Qed.
