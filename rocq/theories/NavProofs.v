From Verif Require Import Base Diag LexModel AstModel ParseSpec NavModel NavSpec.

Lemma nsize_pos n : 0 < nsize n.
Proof. destruct n; simpl; lia. Qed.

Lemma present_in c l : In c (present l) <-> In (Some c) l.
Proof.
  unfold present. rewrite in_flat_map. split.
  - intros ([x|] & I & J); [destruct J as [->|[]]; exact I|contradiction].
  - intros I. exists (Some c). split; auto. now left.
Qed.


Lemma lsz_in c (l : list node) : In (Some c) (map Some l) ->
  nsize c <= (fix lsize l := match l with [] => 0 | m :: l' => nsize m + lsize l' end) l.
Proof. induction l as [|m l IH]; simpl; [contradiction|]. intros [H|I]; [injection H as ->; lia|]. specialize (IH I). lia. Qed.
Lemma fsz_in c l : In (Some c) (map Some (interps l)) ->
  nsize c <= (fix fsize l := match l with [] => 0 | inl _ :: l' => fsize l' | inr m :: l' => nsize m + fsize l' end) l.
Proof.
  induction l as [|[x|m0] l IH]; simpl; [contradiction| |]; intros I; auto.
  destruct I as [I|I]; [injection I as ->; lia|]. specialize (IH I). lia.
Qed.
Lemma child_size n c : In (Some c) (children n) -> nsize c < nsize n.
Proof.
  intros H. pose proof (nsize_pos c) as P.
  destruct n; simpl in H; try contradiction;
    try match goal with |- context [NInherit _ _ ?names ?e] => idtac end;
    try (apply fsz_in in H; simpl; lia);
    try (apply lsz_in in H; simpl; lia);
    try (repeat (destruct H as [H|H]); try contradiction; try (injection H as ->); subst; simpl; lia).
  - rewrite map_app in H. apply in_app_iff in H as [H|H]; apply lsz_in in H; simpl; lia.
  - apply in_app_iff in H as [H|[H|[]]]; [apply lsz_in in H; simpl; lia|subst; simpl; lia].
  - destruct H as [H|H]; [injection H as ->; simpl; lia|apply lsz_in in H; simpl; lia].
  - destruct ell; simpl in H; repeat (destruct H as [H|H]); try contradiction; try discriminate; try (injection H as ->); subst; simpl; lia.
Qed.
Lemma node_of_trans a c d : node_of a c -> node_of c d -> node_of a d.
Proof. induction 1; auto. intros H'. econstructor; eauto. Qed.
Lemma node_of_size a c : node_of a c -> nsize c <= nsize a.
Proof. induction 1; auto. apply present_in, child_size in H. lia. Qed.

(** ** the parent map *)
Lemma pget_insert k k' v m : pget k (pinsert k' v m) =
  match pget k m with Some w => Some w | None => if Nat.eqb k k' then Some v else None end.
Proof.
  unfold pinsert. destruct (pget k' m) as [w|] eqn:E; simpl.
  - destruct (pget k m) eqn:F; auto. destruct (Nat.eqb k k') eqn:K; auto. apply Nat.eqb_eq in K. congruence.
  - destruct (Nat.eqb k k') eqn:K; [apply Nat.eqb_eq in K; subst; now rewrite E|]. destruct (pget k m); auto.
Qed.

Record grown (n parent : node) (m m' : pmap) : Prop := {
  gr_old : forall k v, pget k m = Some v -> pget k m' = Some v;
  gr_new : forall k v, pget k m' = Some v -> pget k m = Some v \/ (k = nid n /\ v = parent) \/
           exists c, node_of n v /\ In c (present (children v)) /\ nid c = k;
  gr_all : forall x, node_of n x -> pget (nid x) m' <> None }.

Lemma fold_crash {A B} (f : res A -> B -> res A) l r :
  (forall x c, (forall a, x <> Ok a) -> (forall a, f x c <> Ok a)) -> (forall a, r <> Ok a) -> forall a, fold_left f l r <> Ok a.
Proof. intros H. revert r. induction l as [|x l IH]; simpl; intros r R; auto. Qed.

Lemma pdfs_ok f : forall n parent m, nsize n <= f -> exists m', pdfs f n parent m = Ok m' /\ grown n parent m m'.
Proof.
  induction f as [|f IH]; intros n parent m S; [pose proof (nsize_pos n); lia|]. simpl.
  set (m0 := pinsert (nid n) parent m).
  assert (G : forall l m1, incl l (children n) ->
    exists m', fold_left (fun r ch => let* m' := r in match ch with Some c => pdfs f c n m' | None => Ok m' end) l (Ok m1) = Ok m' /\
      (forall k v, pget k m1 = Some v -> pget k m' = Some v) /\
      (forall k v, pget k m' = Some v -> pget k m1 = Some v \/ exists c, node_of n v /\ In c (present (children v)) /\ nid c = k) /\
      (forall c x, In (Some c) l -> node_of c x -> pget (nid x) m' <> None)).
  { induction l as [|o l IHl]; intros m1 I.
    - exists m1. split; [reflexivity|]. split; [auto|]. split; [auto|]. intros c x [].
    - simpl. destruct o as [c|].
      + assert (Ic : In (Some c) (children n)) by (apply I; now left).
        destruct (IH c n m1) as (m2 & E & G2); [apply child_size in Ic; lia|]. rewrite E.
        destruct (IHl m2) as (m' & E' & A & B & C); [intros y Hy; apply I; now right|].
        exists m'. split; [exact E'|]. destruct G2 as [O2 N2 A2]. split; [auto|]. split.
        * intros k v Q. destruct (B k v Q) as [Q'|Q']; auto. destruct (N2 k v Q') as [Z|[[-> ->]|(d & Z1 & Z2 & Z3)]]; auto.
          -- right. exists c. split; [constructor|]. split; auto. now apply present_in.
          -- right. exists d. split; auto. econstructor; eauto. now apply present_in.
        * intros d x [D|D] X; [|eauto]. injection D as ->. specialize (A2 x X).
          destruct (pget (nid x) m2) eqn:F; [|congruence]. rewrite (A _ _ F). discriminate.
      + destruct (IHl m1) as (m' & E' & A & B & C); [intros y Hy; apply I; now right|].
        exists m'. split; [exact E'|]. split; auto. split; auto. intros d x [D|D] X; [discriminate|eauto]. }
  destruct (G (children n) m0) as (m' & E & A & B & C); [apply incl_refl|]. exists m'. split; [exact E|]. constructor.
  - intros k v Q. apply A. unfold m0. rewrite pget_insert, Q. reflexivity.
  - intros k v Q. destruct (B k v Q) as [Z|Z]; auto. unfold m0 in Z. rewrite pget_insert in Z.
    destruct (pget k m) eqn:F; auto. destruct (Nat.eqb k (nid n)) eqn:K; [|discriminate]. apply Nat.eqb_eq in K. injection Z as <-. auto.
  - intros x X. inversion X; subst.
    + destruct (pget (nid x) m0) eqn:F; [rewrite (A _ _ F); discriminate|]. unfold m0 in F. rewrite pget_insert in F.
      destruct (pget (nid x) m); [discriminate|]. rewrite Nat.eqb_refl in F. discriminate.
    + match goal with I : In _ (present _) |- _ => apply present_in in I end. eauto.
Qed.

Lemma parents_ok root : exists m, parents root = Ok m /\ grown root root [] m /\ pget (nid root) m = Some root.
Proof.
  unfold parents. destruct (pdfs_ok (nsize root) root root []) as (m & E & G); auto. exists m. split; [exact E|]. split; [exact G|].
  destruct (nsize root) as [|f] eqn:S; [discriminate E|]. simpl in E.
  assert (K : forall l m1 m2, fold_left (fun r ch => let* m' := r in match ch with Some c => pdfs f c root m' | None => Ok m' end) l (Ok m1) = Ok m2 ->
    incl l (children root) -> pget (nid root) m1 = Some root -> pget (nid root) m2 = Some root).
  { induction l as [|o l IHl]; simpl; intros m1 m2 Q I H; [congruence|]. destruct o as [c|].
    - destruct (pdfs_ok f c root m1) as (m3 & E3 & [O3 _ _]); [assert (In (Some c) (children root)) as Ic by (apply I; now left); apply child_size in Ic; lia|].
      rewrite E3 in Q. eapply IHl; eauto. intros y Hy. apply I. now right.
    - eapply IHl; eauto. intros y Hy. apply I. now right. }
  eapply K; [exact E|apply incl_refl|]. rewrite pget_insert. simpl. now rewrite Nat.eqb_refl.
Qed.

Lemma parent_ok root m n p : identified root -> parents root = Ok m -> node_of root n -> pquery m n = Some p ->
  (n = root /\ p = root) \/ (n <> root /\ node_of root p /\ In n (present (children p))).
Proof.
  intros Id E N Q. destruct (parents_ok root) as (m' & E' & [_ G _] & R). rewrite E in E'. injection E' as <-.
  unfold pquery in Q. destruct (Nat.eq_dec (nid n) (nid root)) as [K|K].
  - left. rewrite K, R in Q. injection Q as <-. split; auto. apply Id; auto. constructor.
  - right. split; [congruence|]. destruct (G _ _ Q) as [Z|[[Z _]|(c & C1 & C2 & C3)]]; [discriminate|contradiction|]. split; auto.
    replace n with c; auto. apply Id; auto. eapply node_of_trans; eauto. econstructor; eauto. constructor.
Qed.
Lemma parent_some root m n : parents root = Ok m -> node_of root n -> exists p, pquery m n = Some p.
Proof.
  intros E N. destruct (parents_ok root) as (m' & E' & [_ _ A] & _). rewrite E in E'. injection E' as <-.
  specialize (A n N). unfold pquery. destruct (pget (nid n) m); [eauto|congruence].
Qed.

Lemma pget_key k m v : pget k m = Some v -> In k (map fst m).
Proof.
  induction m as [|[k' v'] m IH]; simpl; [discriminate|]. destruct (Nat.eqb k k') eqn:E; [apply Nat.eqb_eq in E; auto|auto].
Qed.

Lemma pup_ok root m test : identified root -> parents root = Ok m ->
  forall f n seen, node_of root n -> NoDup (map nid seen) -> (forall x, In x seen -> node_of root x /\ nsize x < nsize n) ->
  S (List.length m) <= f + List.length seen ->
  exists l, chain root n l /\ pup f m test n = Ok (find (fun p => test (kind_of p)) l).
Proof.
  intros Id E. induction f as [|f IH]; intros n seen N Nd Hs L.
  - exfalso. assert (I : incl (map nid seen) (map fst m)).
    { intros k I. apply in_map_iff in I as (x & <- & I). destruct (Hs x I) as [X _].
      destruct (parent_some _ _ _ E X) as [p P]. eapply pget_key. exact P. }
    apply (NoDup_incl_length Nd) in I. rewrite !map_length in I. simpl in L. lia.
  - destruct (parent_some _ _ _ E N) as [p P]. simpl. rewrite P.
    destruct (parent_ok _ _ _ _ Id E N P) as [[-> ->]|(Ne & Np & Ch)].
    + exists [root]. split; [constructor|]. simpl. rewrite Nat.eqb_refl. destruct (test (kind_of root)); reflexivity.
    + pose proof (proj1 (present_in _ _) Ch) as Sz. apply child_size in Sz.
      destruct (IH p (n :: seen)) as (l & C & R).
      * exact Np.
      * simpl. constructor; auto. intros I. apply in_map_iff in I as (x & Ex & I). destruct (Hs x I) as [X1 X2].
        rewrite (Id x n X1 N Ex) in X2. lia.
      * intros x [<-|I]; [auto|]. destruct (Hs x I). split; [auto|lia].
      * simpl. lia.
      * exists (n :: l). split; [econstructor; eauto|]. simpl. destruct (test (kind_of n)); [reflexivity|].
        destruct (Nat.eqb (nid p) (nid n)) eqn:K; [|exact R]. apply Nat.eqb_eq in K. rewrite (Id p n Np N K) in Sz. lia.
Qed.
Lemma up_ok root m test n : identified root -> parents root = Ok m -> node_of root n ->
  exists l, chain root n l /\ pup (S (List.length m)) m test n = Ok (find (fun p => test (kind_of p)) l).
Proof.
  intros Id E N. apply (pup_ok root m test Id E _ n []); simpl; auto; [constructor|intros x []|lia].
Qed.

Lemma chain_node root n l : chain root n l -> node_of root n.
Proof.
  induction 1; [constructor|]. eapply node_of_trans; [eassumption|]. econstructor; [eassumption|constructor].
Qed.
Lemma chain_unique root : unshared root -> (forall p, node_of root p -> ~ In root (present (children p))) ->
  forall n l l', chain root n l -> chain root n l' -> l = l'.
Proof.
  intros U R n l l' H. revert l'. induction H as [|n p l I C IH]; intros l' H'; inversion H'; subst; auto.
  - exfalso. match goal with A : chain _ _ _, B : In root _ |- _ => apply chain_node in A; now apply R in B end.
  - exfalso. apply chain_node in C. now apply R in I.
  - f_equal. apply IH. replace p with p0; auto. eapply U; eauto using chain_node.
Qed.
Lemma root_no_child root p : node_of root p -> ~ In root (present (children p)).
Proof. intros N I. apply present_in, child_size in I. apply node_of_size in N. lia. Qed.

(** ** descend *)
Lemma pos_leb_before x y : pos_leb x y = true <-> before x y.
Proof.
  unfold pos_leb, pos_ltb, pos_eqb, before. rewrite !Bool.orb_true_iff, !Bool.andb_true_iff, !Nat.ltb_lt, !Nat.eqb_eq. lia.
Qed.
Lemma pcontains_contains r q : pcontains r q = true <-> contains r q.
Proof. unfold pcontains, contains. now rewrite Bool.andb_true_iff, !pos_leb_before. Qed.

Lemma descend_f_ok root q : forall f n l, nsize n <= f -> chain root n l ->
  Forall (fun m => contains (prange_of (nrange m)) q) (tl l) ->
  exists o, descend_f f n q = Ok o /\
    match o with
    | None => ~ contains (prange_of (nrange n)) q
    | Some m => contains (prange_of (nrange n)) q /\ reached root q m /\
                forall c, In c (present (children m)) -> ~ contains (prange_of (nrange c)) q
    end.
Proof.
  induction f as [|f IH]; intros n l S C A; [pose proof (nsize_pos n); lia|]. simpl.
  destruct (pcontains (prange_of (nrange n)) q) eqn:P; simpl.
  - apply pcontains_contains in P.
    assert (Al : Forall (fun m => contains (prange_of (nrange m)) q) l) by (inversion C; subst; simpl in A; constructor; auto).
    destruct (find _ (children n)) as [[c|]|] eqn:F.
    + apply find_some in F as [I Pc]. pose proof (child_size _ _ I) as Sz.
      destruct (IH c (c :: l)) as (o & E & R); [lia|econstructor; eauto; now apply present_in|exact Al|].
      exists o. split; [exact E|]. destruct o as [m|]; [destruct R as (_ & R); auto|].
      apply pcontains_contains in Pc. contradiction.
    + apply find_some in F as [_ F]. discriminate.
    + exists (Some n). split; auto. split; auto. split; [exists l; auto|]. intros c I Cc. apply present_in in I.
      apply pcontains_contains in Cc. pose proof (find_none _ _ F _ I) as Z. simpl in Z. congruence.
  - exists None. split; auto. intros Q. apply pcontains_contains in Q. congruence.
Qed.
Lemma descend_ok root q : exists o, descend root q = Ok o /\
    match o with
    | None => ~ contains (prange_of (nrange root)) q
    | Some m => contains (prange_of (nrange root)) q /\ reached root q m /\
                forall c, In c (present (children m)) -> ~ contains (prange_of (nrange c)) q
    end.
Proof. unfold descend. apply (descend_f_ok root q _ root [root]); auto; [constructor|constructor]. Qed.
