(** The semantic actions on sets and formals without duplicates: no report, and nothing consumed. *)
From Verif Require Import Base Diag LexModel AstModel PSupModel SemaModel ParseModel GramSpec AccSpec AccBase SemaProofs.
From Coq Require Import Lia.

Lemma beq_spec x y : reflect (x = y) (bytes_eqb x y).
Proof. destruct (bytes_eqb x y) eqn:E; constructor; [now apply beq_eq|now apply beq_neq]. Qed.
Lemma sfind_other x y v m : y <> x -> sfind y (sinsert x v m) = sfind y m.
Proof.
  intros N. induction m as [|[k a] m IH]; cbn.
  - destruct (beq_spec y x); congruence.
  - destruct (beq_spec x k).
    + subst. cbn. destruct (beq_spec y k); congruence.
    + destruct (bytes_ltb x k); cbn; [destruct (beq_spec y x); congruence|]. destruct (bytes_eqb y k); auto.
Qed.
Lemma staticName_is x n : is_name x n -> staticName n = Some x.
Proof. intros (i & r & j & q & ->). reflexivity. Qed.

Section Sema.
Variables (p : bool) (y : list tkind) (l : list (tkind * bytes)).
Lemma fw_insertAttr sa n x v k s (Q : sema -> pst -> Prop) : At p y s l -> is_name x n -> sfind x (sa_static sa) = None ->
  (forall sa' s', At p y s' l -> (forall z, z <> x -> sfind z (sa_static sa') = sfind z (sa_static sa)) -> Q sa' s') ->
  fw (insertAttr sa n (Some v) k) s Q.
Proof.
  intros A N F H. unfold insertAttr. rewrite (staticName_is _ _ N), F. apply fw_ret. apply H; auto. intros z Z. cbn. now apply sfind_other.
Qed.
Lemma fw_addAttr p_ : forall ns sa v s (Q : sema -> pst -> Prop), At p y s l -> Forall2 is_name p_ ns ->
  forall x p', p_ = x :: p' -> sfind x (sa_static sa) = None ->
  (forall sa' s', At p y s' l -> (forall z, z <> x -> sfind z (sa_static sa') = sfind z (sa_static sa)) -> Q sa' s') ->
  fw (addAttr sa ns (Some v)) s Q.
Proof.
  induction p_ as [|x0 p_ IH]; intros ns sa v s Q A N x p' [= -> ->] F H. inversion N as [|? n ? ns' N1 N2]; subst.
  destruct ns' as [|n2 ns'].
  - cbn [addAttr]. eapply fw_insertAttr; eauto.
  - inversion N2 as [|x2 ? p2 ? N3 N4]; subst. unfold addAttr; fold addAttr. rewrite (staticName_is _ _ N1), F.
    apply fw_bind. eapply (IH (n2 :: ns') sa_empty v s); [exact A|exact N2|reflexivity|reflexivity|].
    intros sa' s' A' _. apply fw_bind. unfold mkNested. apply fw_bind. eapply fw_fresh; [exact A'|]. intros i s2 A2. apply fw_ret. apply fw_ret.
    apply H; auto. intros z Z. cbn. now apply sfind_other.
Qed.
Lemma fw_lowerInherit xs : forall ns sa e s (Q : sema -> pst -> Prop), At p y s l -> Forall2 is_name xs ns -> NoDup xs ->
  (forall x, In x xs -> sfind x (sa_static sa) = None) ->
  (forall sa' s', At p y s' l -> (forall z, ~ In z xs -> sfind z (sa_static sa') = sfind z (sa_static sa)) -> Q sa' s') ->
  fw (lowerInherit sa ns e) s Q.
Proof.
  induction xs as [|x xs IH]; intros ns sa e s Q A N D F H; inversion N as [|? n ? ns' N1 N2]; subst; cbn [lowerInherit].
  - apply fw_ret. apply H; auto.
  - inversion D; subst. apply fw_bind.
    assert (X : fw (desugarInheritExpr n e) s (fun _ s' => At p y s' l)).
    { unfold desugarInheritExpr. destruct e as [e|].
      - apply fw_bind. eapply fw_fresh; [exact A|]. intros i s1 A1. apply fw_bind. eapply fw_fresh; [exact A1|]. intros j s2 A2. now apply fw_ret.
      - destruct N1 as (i & r & j & q & ->). apply fw_bind. eapply fw_fresh; [exact A|]. intros i' s1 A1. now apply fw_ret. }
    eapply fw_mono; [exact X|]. intros [v k] s1 A1. apply fw_bind. unfold lowerInheritName. rewrite (staticName_is _ _ N1), (F x (or_introl eq_refl)).
    apply fw_ret. eapply (IH ns'); [exact A1|exact N2|assumption| |].
    + intros z Z. cbn. rewrite sfind_other; [apply F; now right|]. intros ->. contradiction.
    + intros sa' s' A' K. apply H; auto. intros z Z. rewrite K; [|intro; apply Z; now right]. cbn. apply sfind_other. intros ->. apply Z. now left.
Qed.
Lemma nodup_app {A} (a c : list A) : NoDup (a ++ c) -> NoDup a /\ NoDup c /\ forall x, In x a -> ~ In x c.
Proof.
  induction a as [|x a IH]; cbn; intros H; [repeat split; auto; constructor|]. inversion H; subst. destruct (IH H3) as (H4 & H5 & H6).
  repeat split; auto; [constructor; auto; intro; apply H2; apply in_or_app; now left|].
  intros z [<-|Z]; [intro; apply H2; apply in_or_app; now right|now apply H6].
Qed.
Lemma fw_lowerBinds bs : forall ns sa s (Q : sema -> pst -> Prop), At p y s l -> Forall2 is_bind bs ns -> Forall wfb bs ->
  NoDup (flat_map defines bs) -> (forall x, In x (flat_map defines bs) -> sfind x (sa_static sa) = None) ->
  (forall sa' s', At p y s' l -> Q sa' s') -> fw (lowerBinds sa ns) s Q.
Proof.
  induction bs as [|d bs IH]; intros ns sa s Q A N W D F H; inversion N as [|? n ? ns' N1 N2]; subst; cbn [lowerBinds].
  - apply fw_ret. auto.
  - cbn [flat_map] in *. destruct (nodup_app _ _ D) as (D1 & D2 & D3). inversion W as [|? ? W1 W2]; subst.
    inversion N1 as [p_ e pn ne i r eq P T|from xs fn ns2 i r T X]; subst.
    + destruct P as (i' & r' & names & dots & -> & P). cbn [path_names]. inversion W1; subst. destruct p_ as [|x p']; [contradiction|].
      apply fw_bind. eapply (fw_addAttr (x :: p')); [exact A|exact P|reflexivity|apply F; cbn; now left|].
      intros sa' s' A' K. eapply IH; [exact A'|exact N2|exact W2|exact D2| |exact H].
      intros z Z. rewrite K; [apply F; apply in_or_app; now right|]. intros ->. apply (D3 x); [cbn; now left|exact Z].
    + apply fw_bind. eapply fw_lowerInherit; [exact A|exact X|exact D1|intros z Z; apply F; apply in_or_app; now left|].
      intros sa' s' A' K. eapply IH; [exact A'|exact N2|exact W2|exact D2| |exact H].
      intros z Z. rewrite K; [apply F; apply in_or_app; now right|]. intro Z'. now apply (D3 z).
Qed.
Lemma fw_onExprAttrs r bs body rc s (Q : node -> pst -> Prop) : At p y s l -> are_binds bs body -> Forall wfb bs -> NoDup (flat_map defines bs) ->
  (forall i st dy s', At p y s' l -> Q (NAttrs i r body rc st dy) s') -> fw (onExprAttrs r body rc) s Q.
Proof.
  intros A B W D H. unfold onExprAttrs. apply fw_bind. assert (N : Forall2 is_bind bs (binds_list body)) by (inversion B; subst; [constructor|assumption]).
  eapply fw_lowerBinds; [exact A|exact N|exact W|exact D|reflexivity|]. intros sa s' A'. apply fw_bind. eapply fw_fresh; [exact A'|].
  intros i s2 A2. apply fw_ret. auto.
Qed.

(** * Formals *)
Definition seps (ms : list node) : Prop := Forall (fun m => f_comma m <> None) (tl ms).
Lemma fw_sep ms : forall s (Q : unit -> pst -> Prop), Forall (fun m => f_comma m <> None) ms -> Q tt s -> fw (checkFormalSep false ms) s Q.
Proof.
  induction ms as [|m ms IH]; intros s Q F H; cbn [checkFormalSep]; [exact H|]. inversion F; subst. destruct (f_comma m) eqn:E; [|contradiction].
  cbn [negb is_some andb]. apply fw_bind. apply fw_ret. apply IH; auto.
Qed.
Lemma fw_ell src f0 ms : forall first s (Q : unit -> pst -> Prop), (forall a z, ms = a ++ [z] -> Forall (fun m => f_ell m = None) a) -> Q tt s -> fw (checkFormalEllipsis_f src first f0 ms) s Q.
Proof.
  induction ms as [|m ms IH]; intros first s Q F H; cbn [checkFormalEllipsis_f]; [exact H|]. destruct ms as [|m2 ms]; [exact H|].
  destruct (exists_last (l := m2 :: ms)) as (a & z & E); [discriminate|]. rewrite E in *.
  assert (F' := F (m :: a) z eq_refl). inversion F' as [|? ? F1 F2]; subst. rewrite F1. cbn [is_some]. apply fw_bind. apply fw_ret. apply IH; auto.
  intros a' z' E'. apply app_inj_tail in E' as [<- <-]. exact F2.
Qed.
Lemma fw_empty ms : forall s (Q : unit -> pst -> Prop), (forall a z, ms = a ++ [z] -> Forall (fun m => f_id m <> None) a) -> Q tt s -> fw (checkFormalEmpty ms) s Q.
Proof.
  induction ms as [|m ms IH]; intros s Q F H; cbn [checkFormalEmpty]; [exact H|]. destruct ms as [|m2 ms]; [exact H|].
  destruct (exists_last (l := m2 :: ms)) as (a & z & E); [discriminate|]. rewrite E in *.
  assert (F' := F (m :: a) z eq_refl). inversion F' as [|? ? F1 F2]; subst. destruct (f_id m); [|contradiction]. cbn [is_some negb]. rewrite Bool.andb_false_r. cbn [andb].
  apply fw_bind. apply fw_ret. apply IH; auto. intros a' z' E'. apply app_inj_tail in E' as [<- <-]. exact F2.
Qed.
Lemma fw_dedup fs : forall ms ms' el d s (Q : list (bytes * node) -> pst -> Prop), Forall2 is_formal fs ms -> are_ellipsis el ms' -> NoDup (map fst fs) ->
  (forall x, In x (map fst fs) -> dfind x d = None) ->
  (forall d', (forall x, ~ In x (map fst fs) -> dfind x d' = dfind x d) -> Q d' s) -> fw (dedupFormal d (ms ++ ms')) s Q.
Proof.
  induction fs as [|f fs IH]; intros ms ms' el d s Q N E D F H; inversion N as [|? m ? ms2 N1 N2]; subst; cbn [app dedupFormal].
  - inversion E; subst; cbn; apply fw_ret; apply H; auto.
  - inversion N1 as [x dt i r c nx dn (ii & ri & ->) T]; subst. cbn [f_id ident_name]. cbn [map fst] in *. inversion D; subst. rewrite (F x (or_introl eq_refl)).
    eapply IH; [exact N2|exact E|assumption| |].
    + intros z Z. rewrite dfind_dinsert. destruct (beq_spec z x); [subst; contradiction|]. apply F. now right.
    + intros d' K. apply H. intros z Z. rewrite K; [|intro; apply Z; now right]. rewrite dfind_dinsert. destruct (beq_spec z x); [subst; exfalso; apply Z; now left|reflexivity].
Qed.
Lemma dfind_map {A B} (f : A -> B) x m : dfind x (map (fun kv => (fst kv, f (snd kv))) m) = option_map f (dfind x m).
Proof. induction m as [|[k v] m IH]; cbn; auto. destruct (bytes_eqb x k); auto. Qed.
Lemma fw_onFormals src r fs ms ms' el s (Q : node -> pst -> Prop) : At p y s l -> Forall2 is_formal fs ms -> are_ellipsis el ms' -> NoDup (map fst fs) ->
  seps (ms ++ ms') ->
  (forall i dd s', At p y s' l -> (forall x, ~ In x (map fst fs) -> dfind x dd = None) -> Q (NFormals i r (ms ++ ms') dd) s') ->
  fw (onFormals src r (ms ++ ms')) s Q.
Proof.
  intros A N E D S_ H. unfold onFormals. apply fw_bind.
  assert (G : forall a z, ms ++ ms' = a ++ [z] -> Forall (fun m => f_id m <> None /\ f_ell m = None) a).
  { intros a z X. assert (Y : Forall (fun m => f_id m <> None /\ f_ell m = None) ms).
    { clear - N. induction N as [|f m fs ms H _ IH]; constructor; auto. inversion H; subst. cbn. split; [discriminate|reflexivity]. }
    inversion E; subst.
    - rewrite app_nil_r in X. subst ms. apply Forall_app in Y. apply Y.
    - apply app_inj_tail in X as [<- _]. exact Y. }
  assert (X : forall (Q : unit -> pst -> Prop), Q tt s -> fw (checkFormalSep true (ms ++ ms')) s Q).
  { intros Q' K. destruct (ms ++ ms') as [|m l'] eqn:Em; [exact K|]. cbn [checkFormalSep negb andb]. apply fw_bind. apply fw_ret. apply fw_sep; auto. }
  apply X. clear X. apply fw_bind.
  assert (X : forall (Q : unit -> pst -> Prop), Q tt s -> fw (checkFormalEllipsis src (ms ++ ms')) s Q).
  { intros Q' K. unfold checkFormalEllipsis. destruct (ms ++ ms') as [|m l'] eqn:Em; [exact K|]. apply fw_ell; auto. intros a z Ez. eapply Forall_impl; [|exact (G a z Ez)]. now intros ? []. }
  apply X. clear X. apply fw_bind. apply fw_empty; [intros a z Ez; eapply Forall_impl; [|exact (G a z Ez)]; now intros ? []|].
  apply fw_bind. eapply fw_dedup; [exact N|exact E|exact D|reflexivity|]. intros d K. apply fw_bind. eapply fw_fresh; [exact A|]. intros i s' A'. apply fw_ret.
  apply H; auto. intros x Hx. rewrite (dfind_map (fun v => nid v)), (K x Hx). reflexivity.
Qed.
Lemma fw_onLambdaArg r id fm s (Q : node -> pst -> Prop) : At p y s l ->
  (forall i f, id = Some i -> fm = Some f -> dedup_at f (ident_name i) = None) ->
  (forall i s', At p y s' l -> Q (NLambdaArg i r id fm) s') -> fw (onLambdaArg r id fm) s Q.
Proof.
  intros A K H. unfold onLambdaArg. apply fw_bind.
  assert (X : forall (Q : unit -> pst -> Prop), Q tt s -> fw (match id, fm with Some i, Some f => match dedup_at f (ident_name i) with Some dup =>
     emit (d_note (Note_ NK_DuplicateFormal (nrange dup) []) (diag0 DK_DuplicatedFormalToArg (nrange i))) | None => ret tt end | _, _ => ret tt end) s Q).
  { intros Q' Z. destruct id as [i|], fm as [f|]; try exact Z. rewrite (K i f eq_refl eq_refl). exact Z. }
  apply X. apply fw_bind. eapply fw_fresh; [exact A|]. intros i s' A'. apply fw_ret. auto.
Qed.
End Sema.
