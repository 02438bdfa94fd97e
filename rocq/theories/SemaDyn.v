(** Lemmas on dynamic attributes. *)
From Verif Require Import Base Diag LexModel AstModel PSupModel SemaModel SemaSpec SemaProofs.

(** a set as a node *)
Definition as_set (sa : sema) : node := NAttrs 0 (point (mkCur 0 0 0)) None None (sa_static sa) (sa_dynamic sa).
Lemma dyn_same n n' : set_of n = set_of n' -> dynamic_of n = dynamic_of n' -> forall p key w, dyn_at n p key w -> dyn_at n' p key w.
Proof.
  intros E1 E2 p key w H. inversion H; subst.
  - constructor. now rewrite <- E2.
  - econstructor; eauto. now rewrite <- E1.
Qed.
Lemma dyn_cons n st x p key w : set_of n = Some st ->
  (dyn_at n (x :: p) key w <-> exists a, In (x, a) st /\ dyn_at (a_value a) p key w).
Proof.
  intros E. split.
  - intros H. inversion H; subst. rewrite E in *. match goal with Q : Some _ = Some _ |- _ => injection Q as -> end. eauto.
  - intros (a & I & H). econstructor; eauto.
Qed.
Lemma dyn_sa sa p key w : dyn_at (as_set sa) p key w <->
  match p with [] => In (AK_Plain, key, w) (sa_dynamic sa)
  | x :: q => exists a, In (x, a) (sa_static sa) /\ dyn_at (a_value a) q key w end.
Proof.
  destruct p as [|x q]; [|now apply dyn_cons]. split; [|now constructor]. intros H. inversion H; auto.
Qed.
(** the dynamic attributes of a set grow *)
Definition more_dyn (sa sa' : sema) : Prop := forall p key w, dyn_at (as_set sa) p key w -> dyn_at (as_set sa') p key w.
Lemma more_sinsert sa x v : sorted (sa_static sa) -> (forall c, In (x, c) (sa_static sa) -> forall p key w, dyn_at (a_value c) p key w -> dyn_at (a_value v) p key w) ->
  more_dyn sa (SA (sinsert x v (sa_static sa)) (sa_dynamic sa)).
Proof.
  intros S H p key w D. rewrite dyn_sa in *. destruct p as [|y q]; [exact D|]. destruct D as (a & I & D). simpl.
  destruct (bytes_eqb y x) eqn:E.
  - apply beq_eq in E. subst y. exists v. split; [apply in_sinsert; auto|eauto].
  - apply beq_neq in E. exists a. split; auto. apply in_sinsert; auto.
Qed.
Lemma mergeStatic_in y : forall x s x' s', mergeStatic x y s = Ok (x', s') -> sorted x ->
  exists news, says s s' news /\ (forall k a, In (k, a) x -> In (k, a) x') /\ (quiet news -> forall k a, In (k, a) y -> In (k, a) x').
Proof.
  induction y as [|[k v] y IH]; intros x s x' s' H S; simpl in H.
  - injection H as <- <-. exists []. split; [reflexivity|]. split; auto. intros _ k a [].
  - destruct (sfind k x) as [xv|] eqn:F.
    + apply bind_ok in H as (u & s1 & E & H). apply dupAttr_says in E. destruct (IH _ _ _ _ H S) as (n2 & S2 & A & B).
      exists (n2 ++ [duplicate k (a_key v) (a_key xv)]). split; [eapply says_trans; eauto|]. split; auto. intros Q. exfalso.
      eapply Q; [apply in_app_iff; right; now left|reflexivity].
    + destruct (IH _ _ _ _ H (sorted_sinsert _ _ _ S)) as (n2 & S2 & A & B). exists n2. split; auto. split.
      * intros k' a I. apply A. apply in_sinsert; auto. right. split; auto. intros ->. now apply (sfind_none _ _ F a).
      * intros Q k' a [E|I]; [|now apply B]. injection E as <- <-. apply A. apply in_sinsert; auto.
Qed.
Lemma sema_as n sa : attrs_sema n = Some sa -> set_of n = Some (sa_static sa) /\ dynamic_of n = sa_dynamic sa.
Proof. destruct n; try discriminate. intros [= <-]. auto. Qed.
Lemma as_with n sa sa0 : attrs_sema n = Some sa0 -> set_of (with_sema n sa) = Some (sa_static sa) /\ dynamic_of (with_sema n sa) = sa_dynamic sa.
Proof. destruct n; try discriminate. auto. Qed.
Lemma dyn_of_sema n sa : attrs_sema n = Some sa -> forall p key w, dyn_at n p key w <-> dyn_at (as_set sa) p key w.
Proof. intros E p key w. apply sema_as in E as [E1 E2]. split; apply dyn_same; auto. Qed.
Lemma dyn_of_with n sa sa0 : attrs_sema n = Some sa0 -> forall p key w, dyn_at (with_sema n sa) p key w <-> dyn_at (as_set sa) p key w.
Proof. intros E p key w. apply (as_with _ sa) in E as [E1 E2]. split; apply dyn_same; auto. Qed.
Lemma more_refl sa : more_dyn sa sa.
Proof. intros p key w H. exact H. Qed.

Lemma insertAttr_dyn sa name v s sa' s' : insertAttr sa name v AK_Plain s = Ok (sa', s') -> tidy (sa_static sa) ->
  exists news, says s s' news /\ more_dyn sa sa' /\
    (quiet news -> forall w, v = Some w -> forall p key z, path_dyn [name] w p key z -> dyn_at (as_set sa') p key z).
Proof.
  unfold insertAttr. intros H T. pose proof (tidy_sorted _ T) as So. destruct (staticName name) as [sn|] eqn:Sn.
  - destruct (sfind sn (sa_static sa)) as [c|] eqn:F.
    + pose proof (sfind_in _ _ _ F) as I.
      assert (Rej : (do! dupAttr sn (nrange name) (nrange (a_key c)) in ret sa) s = Ok (sa', s') ->
        exists news, says s s' news /\ more_dyn sa sa' /\
          (quiet news -> forall w, v = Some w -> forall p key z, path_dyn [name] w p key z -> dyn_at (as_set sa') p key z)).
      { intros H'. apply bind_ok in H' as (u & s1 & E & H'). injection H' as <- <-. apply dupAttr_says in E. eexists. split; [exact E|].
        split; [apply more_refl|]. intros Q. exfalso. eapply Q; [now left|reflexivity]. }
      destruct (attrs_sema (a_value c)) as [xs|] eqn:Xs; [|apply Rej; exact H].
      destruct v as [v|]; [|apply Rej; exact H]. destruct (attrs_sema v) as [ys|] eqn:Ys; [|apply Rej; exact H]. clear Rej.
      apply bind_ok in H as (u & s1 & E & H). apply checkRec_says in E as (n0 & Y0 & Q0).
      unfold mergeAttrSets in H. apply bind_ok in H as (m & s2 & E & H). apply bind_ok in E as (st & s3 & E & E').
      injection E' as <- <-. injection H as <- <-.
      assert (Tx : sorted (sa_static xs)). { apply tidy_sorted. eapply tidy_sub; [exact T|exact I|]. now apply sema_set. }
      destruct (mergeStatic_in _ _ _ _ _ E Tx) as (n1 & Y1 & M1 & M2).
      assert (N : forall p key z, dyn_at (a_value c) p key z -> dyn_at (as_set (SA st (sa_dynamic xs ++ sa_dynamic ys))) p key z).
      { intros p key z D. apply (dyn_of_sema _ _ Xs) in D. rewrite dyn_sa in *. destruct p as [|y q]; [simpl; apply in_app_iff; auto|].
        destruct D as (a & Ia & D). exists a. split; auto. }
      exists (n1 ++ n0). split; [eapply says_trans; eauto|]. split.
      * apply more_sinsert; auto. intros d Id p key z D. simpl. rewrite (dyn_of_with _ _ _ Xs). apply N.
        now rewrite (sorted_fun _ _ _ _ So Id I) in D.
      * intros Q w Ew p key z D. injection Ew as <-. inversion D; subst; [congruence|]. assert (x = sn) by congruence. subst x. rewrite dyn_sa.
        exists (a_kind c, a_key c, with_sema (a_value c) (SA st (sa_dynamic xs ++ sa_dynamic ys))). split; [apply in_sinsert; auto|].
        change (dyn_at (with_sema (a_value c) (SA st (sa_dynamic xs ++ sa_dynamic ys))) p0 key z). rewrite (dyn_of_with _ _ _ Xs).
        match goal with G : dyn_at _ p0 _ _ |- _ => rename G into G0 end. apply (dyn_of_sema _ _ Ys) in G0. rewrite dyn_sa in *.
        destruct p0 as [|y q]; [simpl; apply in_app_iff; auto|]. destruct G0 as (a & Ia & G0). exists a. split; auto. apply M2; auto.
        intros d Id. apply Q. apply in_app_iff. auto.
    + destruct v as [v|].
      * injection H as <- <-. exists []. split; [reflexivity|]. split.
        -- apply more_sinsert; auto. intros c I. now apply (sfind_none _ _ F) in I.
        -- intros _ w Ew p key z D. injection Ew as <-. inversion D; subst; [congruence|]. assert (x = sn) by congruence. subst x. rewrite dyn_sa.
           exists (AK_Plain, name, v). split; [apply in_sinsert; auto|auto].
      * injection H as <- <-. exists []. split; [reflexivity|]. split; [apply more_refl|]. discriminate.
  - destruct v as [v|]; injection H as <- <-; exists []; (split; [reflexivity|]); split; try apply more_refl; try discriminate.
    + intros p key w D. rewrite dyn_sa in *. destruct p; [simpl; apply in_app_iff; auto|exact D].
    + intros _ w Ew p key z D. injection Ew as <-. inversion D; subst; [|congruence]. rewrite dyn_sa. simpl. apply in_app_iff. right. now left.
Qed.

Lemma addAttr_dyn path : forall sa v s sa' s', addAttr sa path v s = Ok (sa', s') ->
  tidy (sa_static sa) -> (forall v' st, v = Some v' -> set_of v' = Some st -> tidy st) ->
  exists news, says s s' news /\ more_dyn sa sa' /\
    (quiet news -> forall w, v = Some w -> forall p key z, path_dyn path w p key z -> dyn_at (as_set sa') p key z).
Proof.
  induction path as [|name path IH]; intros sa v s sa' s' H T Tv; [discriminate|].
  destruct path as [|n2 more]; [exact (insertAttr_dyn _ _ _ _ _ _ H T)|].
  pose proof (tidy_sorted _ T) as So.
  cbn [addAttr] in H. fold addAttr in H. change ((fix addAttr (sa : sema) (path : list node) (e : option node) {struct path} : P sema := _) ?a ?p ?e) with (addAttr a p e) in H.
  destruct (staticName name) as [sn|] eqn:Sn.
  - destruct (sfind sn (sa_static sa)) as [c|] eqn:F.
    + pose proof (sfind_in _ _ _ F) as I.
      assert (Rej : (do! dupAttr sn (nrange name) (nrange (a_key c)) in ret sa) s = Ok (sa', s') ->
        exists news, says s s' news /\ more_dyn sa sa' /\
          (quiet news -> forall w, v = Some w -> forall p key z, path_dyn (name :: n2 :: more) w p key z -> dyn_at (as_set sa') p key z)).
      { intros H'. apply bind_ok in H' as (u & s1 & E & H'). injection H' as <- <-. apply dupAttr_says in E. eexists. split; [exact E|].
        split; [apply more_refl|]. intros Q. exfalso. eapply Q; [now left|reflexivity]. }
      destruct (fromInherit c); [apply Rej; exact H|]. destruct (attrs_sema (a_value c)) as [inner|] eqn:Xs; [|apply Rej; exact H]. clear Rej.
      apply bind_ok in H as (inner' & s1 & E & H). injection H as <- <-.
      destruct (IH _ _ _ _ _ E (tidy_sub _ _ _ _ T I (sema_set _ _ Xs)) Tv) as (news & Y & M & A). exists news. split; auto. split.
      * apply more_sinsert; auto. intros d Id p key z D. simpl. rewrite (dyn_of_with _ _ _ Xs). apply M.
        rewrite (sorted_fun _ _ _ _ So Id I) in D. now rewrite <- (dyn_of_sema _ _ Xs).
      * intros Q w Ew p key z D. inversion D; subst. assert (x = sn) by congruence. subst x. rewrite dyn_sa.
        exists (a_kind c, a_key c, with_sema (a_value c) inner'). split; [apply in_sinsert; auto|].
        change (dyn_at (with_sema (a_value c) inner') p0 key z). rewrite (dyn_of_with _ _ _ Xs). eauto.
    + apply bind_ok in H as (inner' & s1 & E & H). apply bind_ok in H as (n & s2 & E2 & H). injection H as <- <-.
      unfold mkNested, fresh in E2. apply bind_ok in E2 as (i & s3 & E2 & E3). injection E2 as <- <-. injection E3 as <- <-.
      destruct (IH _ _ _ _ _ E tidy_nil Tv) as (news & Y & M & A). exists news. split; [exact Y|]. split.
      * apply more_sinsert; auto. intros c I. now apply (sfind_none _ _ F) in I.
      * intros Q w Ew p key z D. inversion D; subst. assert (x = sn) by congruence. subst x. rewrite dyn_sa. eexists. split; [apply in_sinsert; auto|].
        eapply dyn_same; [| |eapply A; eauto]; reflexivity.
  - apply bind_ok in H as (inner' & s1 & E & H). apply bind_ok in H as (n & s2 & E2 & H). injection H as <- <-.
    unfold mkNested, fresh in E2. apply bind_ok in E2 as (i & s3 & E2 & E3). injection E2 as <- <-. injection E3 as <- <-.
    destruct (IH _ _ _ _ _ E tidy_nil Tv) as (news & Y & M & A). exists news. split; [exact Y|]. split.
    + intros p key w D. rewrite dyn_sa in *. destruct p; [simpl; apply in_app_iff; auto|exact D].
    + intros Q w Ew p key z D. inversion D; congruence.
Qed.

(** ** the dynamic attributes of the set itself, in order *)
Lemma insertAttr_own sa name v s sa' s' : insertAttr sa name v AK_Plain s = Ok (sa', s') ->
  exists ds, sa_dynamic sa' = sa_dynamic sa ++ ds /\ Forall2 stands_for (own_dynamic (Bound [name] v)) ds.
Proof.
  unfold insertAttr. intros H. simpl. destruct (staticName name) as [sn|].
  - exists []. rewrite app_nil_r. split; [|constructor].
    destruct (sfind sn (sa_static sa)) as [c|].
    + assert (Rej : (do! dupAttr sn (nrange name) (nrange (a_key c)) in ret sa) s = Ok (sa', s') -> sa_dynamic sa' = sa_dynamic sa).
      { intros H'. apply bind_ok in H' as (u9 & s9 & E9 & H'). now injection H' as <- <-. }
      destruct (attrs_sema (a_value c)); [|now apply Rej]. destruct v as [v|]; [|now apply Rej]. destruct (attrs_sema v); [|now apply Rej].
      apply bind_ok in H as (u & s5 & E & H). apply bind_ok in H as (m & s6 & E2 & H). now injection H as <- _.
    + destruct v; now injection H as <- _.
  - destruct v as [v|]; injection H as <- <-.
    + eexists. split; [reflexivity|]. constructor; [|constructor]. split; [reflexivity|]. split; reflexivity.
    + exists []. rewrite app_nil_r. split; [reflexivity|constructor].
Qed.
Lemma addAttr_own path sa v s sa' s' : addAttr sa path v s = Ok (sa', s') -> (forall v' st, v = Some v' -> set_of v' = Some st -> tidy st) ->
  exists ds, sa_dynamic sa' = sa_dynamic sa ++ ds /\ Forall2 stands_for (own_dynamic (Bound path v)) ds.
Proof.
  intros H Tv. destruct path as [|name path]; [discriminate|].
  destruct path as [|n2 more]; [exact (insertAttr_own _ _ _ _ _ _ H)|].
  cbn [addAttr] in H. fold addAttr in H. change ((fix addAttr (sa : sema) (path : list node) (e : option node) {struct path} : P sema := _) ?a ?p ?e) with (addAttr a p e) in H.
  simpl own_dynamic. destruct (staticName name) as [sn|].
  - exists []. rewrite app_nil_r. split; [|constructor].
    destruct (sfind sn (sa_static sa)) as [c|].
    + assert (Rej : (do! dupAttr sn (nrange name) (nrange (a_key c)) in ret sa) s = Ok (sa', s') -> sa_dynamic sa' = sa_dynamic sa).
      { intros H'. apply bind_ok in H' as (u9 & s9 & E9 & H'). now injection H' as <- <-. }
      destruct (fromInherit c); [now apply Rej|]. destruct (attrs_sema (a_value c)); [|now apply Rej].
      apply bind_ok in H as (u & s5 & E & H). now injection H as <- _.
    + apply bind_ok in H as (u & s1 & E & H). apply bind_ok in H as (m & s2 & E2 & H). now injection H as <- _.
  - apply bind_ok in H as (inner' & s1 & E & H). apply bind_ok in H as (n & s2 & E2 & H). injection H as <- _.
    unfold mkNested, fresh in E2. apply bind_ok in E2 as (i & s3 & E2 & E3). injection E2 as <- <-. injection E3 as <- _.
    eexists. split; [reflexivity|]. constructor; [|constructor]. split; [reflexivity|]. split; [reflexivity|].
    cbn [snd]. exists (sa_static inner'). split; [reflexivity|].
    change (addAttr sa_empty (n2 :: more) v s = Ok (inner', s1)) in E.
    destruct (addAttr_step _ _ _ _ _ _ E tidy_nil Tv) as (news & Y & St). split.
    + intros p key k A. destruct (s_new _ _ _ _ _ St p key k A) as [Z|Z]; auto. now apply at_nil in Z.
    + apply (s_all _ _ _ _ _ St). intros d Id K.
      destruct (s_dup _ _ _ _ _ St d Id K) as (p & y & key & k & key1 & k1 & _ & Q & _). now apply at_nil in Q.
Qed.
Lemma inheritName_own sa name v k s sa' s' : lowerInheritName sa name v k s = Ok (sa', s') -> sa_dynamic sa' = sa_dynamic sa.
Proof.
  unfold lowerInheritName. destruct (staticName name) as [sn|].
  - destruct (sfind sn (sa_static sa)).
    + intros H. apply bind_ok in H as (u & s5 & E & H). now injection H as <- _.
    + intros H. now injection H as <- _.
  - intros H. apply bind_ok in H as (u & s1 & E & H). apply bind_ok in H as (u2 & s2 & E2 & H). now injection H as <- _.
Qed.
Lemma inherit_own names e : forall sa s sa' s', lowerInherit sa names e s = Ok (sa', s') -> sa_dynamic sa' = sa_dynamic sa.
Proof.
  induction names as [|n names IH]; intros sa s sa' s' H; simpl in H; [now injection H as <- _|].
  apply bind_ok in H as ([v k] & s1 & E1 & H). apply bind_ok in H as (sa1 & s2 & E2 & H).
  rewrite (IH _ _ _ _ H). eapply inheritName_own; eauto.
Qed.
Lemma no_own e names : flat_map own_dynamic (map (fun n => Inherited n e) names) = [].
Proof. induction names; auto. Qed.
Lemma binds_own bs : forall sa s sa' s', lowerBinds sa bs s = Ok (sa', s') -> literals_tidy bs ->
  exists ds, sa_dynamic sa' = sa_dynamic sa ++ ds /\ Forall2 stands_for (flat_map own_dynamic (items bs)) ds.
Proof.
  induction bs as [|q bs IH]; intros sa s sa' s' H So; simpl in H.
  - injection H as <- _. exists []. rewrite app_nil_r. split; [reflexivity|constructor].
  - assert (L2 : literals_tidy bs). { intros names v st I. apply (So names v st). simpl. apply in_app_iff. auto. }
    destruct q; try discriminate; apply bind_ok in H as (sa1 & s1 & E & H); destruct (IH _ _ _ _ H L2) as (d2 & E2 & F2).
    + destruct q; try (simpl in E; discriminate). simpl path_names in E. destruct (addAttr_own _ _ _ _ _ _ E) as (d1 & E1 & F1).
      { intros v st -> Es. eapply So; [|exact Es]. simpl. now left. }
      exists (d1 ++ d2). split; [now rewrite E2, E1, app_assoc|]. unfold items. cbn [flat_map items_of]. rewrite flat_map_app.
      apply Forall2_app; [|exact F2]. simpl flat_map. rewrite app_nil_r. exact F1.
    + exists d2. split; [rewrite E2; f_equal; eapply inherit_own; eauto|]. unfold items. cbn [flat_map items_of]. rewrite flat_map_app.
      rewrite no_own. exact F2.
Qed.
Lemma more_trans a c d : more_dyn a c -> more_dyn c d -> more_dyn a d.
Proof. intros H1 H2 p key w H. auto. Qed.
Lemma inheritName_more sa name v k s sa' s' : lowerInheritName sa name v k s = Ok (sa', s') -> tidy (sa_static sa) -> more_dyn sa sa'.
Proof.
  unfold lowerInheritName. intros H T. destruct (staticName name) as [sn|].
  - destruct (sfind sn (sa_static sa)) eqn:F.
    + apply bind_ok in H as (u & s1 & E & H). injection H as <- _. apply more_refl.
    + injection H as <- _. apply more_sinsert; auto using tidy_sorted. intros c I. now apply (sfind_none _ _ F) in I.
  - apply bind_ok in H as (u & s1 & E & H). apply bind_ok in H as (u2 & s2 & E2 & H). injection H as <- _. apply more_refl.
Qed.
Lemma inherit_more names e : forall sa s sa' s', lowerInherit sa names e s = Ok (sa', s') -> tidy (sa_static sa) -> more_dyn sa sa'.
Proof.
  induction names as [|n names IH]; intros sa s sa' s' H T; simpl in H; [injection H as <- _; apply more_refl|].
  apply bind_ok in H as ([v k] & s1 & E1 & H). apply bind_ok in H as (sa1 & s2 & E2 & H).
  destruct (lowerInheritName_step _ _ _ _ _ _ _ _ _ E1 E2 T) as (n1 & _ & St & _).
  eapply more_trans; [eapply inheritName_more; eauto|]. eapply IH; eauto. exact (s_tidy _ _ _ _ _ St).
Qed.
Lemma binds_dyn bs : forall sa s sa' s', lowerBinds sa bs s = Ok (sa', s') -> tidy (sa_static sa) -> literals_tidy bs ->
  exists news, says s s' news /\ more_dyn sa sa' /\
    (quiet news -> forall names v p key z, In (Bound names (Some v)) (items bs) -> path_dyn names v p key z -> dyn_at (as_set sa') p key z).
Proof.
  induction bs as [|q bs IH]; intros sa s sa' s' H T So; simpl in H.
  - injection H as <- <-. exists []. split; [reflexivity|]. split; [apply more_refl|]. intros _ names v p key z [].
  - assert (L2 : literals_tidy bs). { intros names v st I. apply (So names v st). simpl. apply in_app_iff. auto. }
    destruct q; try discriminate; apply bind_ok in H as (sa1 & s1 & E & H).
    + destruct q; try (simpl in E; discriminate). simpl path_names in E.
      match type of E with addAttr _ _ ?e _ = _ => assert (Tv : forall v' st, e = Some v' -> set_of v' = Some st -> tidy st) end.
      { intros v st -> Es. eapply So; [|exact Es]. simpl. now left. }
      destruct (addAttr_dyn _ _ _ _ _ _ E T Tv) as (n1 & Y1 & M1 & A1). destruct (addAttr_step _ _ _ _ _ _ E T Tv) as (n1' & _ & St).
      destruct (IH _ _ _ _ H (s_tidy _ _ _ _ _ St) L2) as (n2 & Y2 & M2 & A2).
      exists (n2 ++ n1). split; [eapply says_trans; eauto|]. split; [eapply more_trans; eauto|].
      intros Q ns v p key z [I|I] D.
      * injection I as -> ->. apply M2. eapply A1; eauto. intros d Id. apply Q. apply in_app_iff. auto.
      * eapply A2; eauto. intros d Id. apply Q. apply in_app_iff. auto.
    + destruct (lowerInherit_run _ _ _ _ _ _ E T) as (n1 & Y1 & R & _). pose proof (inherit_more _ _ _ _ _ _ E T) as M1.
      destruct (IH _ _ _ _ H (r_tidy _ _ _ _ R) L2) as (n2 & Y2 & M2 & A2).
      exists (n2 ++ n1). split; [eapply says_trans; eauto|]. split; [eapply more_trans; eauto|].
      intros Q ns v p key z I D. unfold items in I. cbn [flat_map items_of] in I. apply in_app_iff in I as [I|I].
      * apply in_map_iff in I as (y & I & _). discriminate.
      * eapply A2; eauto. intros d Id. apply Q. apply in_app_iff. auto.
Qed.
