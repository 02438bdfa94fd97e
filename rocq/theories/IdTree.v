(** For C73: what makes the identities in a tree distinct, and how it carries over to a node built from its parts. *)
From Coq Require Import Permutation.
From Verif Require Import Base Diag LexModel AstModel PSupModel SemaModel SemaSpec SemaProofs ParseSpec ParseTree.

(** [wid n i]: [i] is the identity of something in [n] *)
Definition wid (n : node) (i : nat) : Prop := exists m, within n m /\ nid m = i.
Definition wdisj (x y : node) : Prop := forall i, wid x i -> wid y i -> False.
Definition inU (U : nat -> Prop) (n : node) : Prop := forall i, wid n i -> U i.
Definition pairs (l : list node) : Prop := ForallOrdPairs wdisj l.
Definition misc (n : node) : Prop := exists i r, n = NMisc i r.

(** the values that an attribute table leads to *)
Definition ents (st : smap) (dy : list attribute) : list (akind * node) :=
  map (fun p => (a_kind (snd p), a_value (snd p))) st
  ++ flat_map (fun a => [(AK_Plain, a_key a); (a_kind a, a_value a)]) dy.
(** two names inherited from one expression *)
Definition mates (x y : node) : Prop :=
  exists i1 r1 ex p1 d1 i2 r2 p2 d2,
    x = NSelect i1 r1 ex None (Some p1) None d1 /\ y = NSelect i2 r2 ex None (Some p2) None d2 /\
    i1 <> i2 /\ wdisj p1 p2 /\ ~ wid p1 i2 /\ ~ wid p2 i1.
Definition okp (x y : akind * node) : Prop :=
  wdisj (snd x) (snd y) \/ (fst x = AK_InheritFrom /\ fst y = AK_InheritFrom /\ mates (snd x) (snd y)).

(** where the entries of a table come from: the nodes in [B], sets made or extended by the analysis, and inherited
    names *)
Inductive prov (B : node -> Prop) : node -> Prop :=
| prov_node n : B n -> prov B n
| prov_set i r bd rc st dy :
    (bd = None /\ rc = None) \/ (exists st0 dy0, B (NAttrs i r bd rc st0 dy0)) ->
    (forall a, In a (map snd st ++ dy) -> B (a_key a) /\ prov B (a_value a)) ->
    prov B (NAttrs i r bd rc st dy)
| prov_var i r j s x : B (NIdent j s x) -> prov B (NVar i r (NIdent j s x))
| prov_sel i r p q ex name ds : B ex -> B name ->
    prov B (NSelect i r ex None (Some (NAttrPath p q [name] [])) None ds).
Definition below_ (o : option node) (x : node) : Prop := exists y, o = Some y /\ node_of y x.

(** one node *)
Definition lrest (m : node) : Prop :=
  match m with
  | NLet _ _ kl ki e a =>
      misc kl /\ (forall x, a = Some x -> attrs_rec x = Some kl) /\
      pairs (optlist a ++ optlist ki ++ optlist e) /\ pairs ([kl] ++ optlist ki ++ optlist e)
  | NLegacyLet _ _ kl a => misc kl /\ (forall x, a = Some x -> attrs_rec x = Some kl)
  | NWith _ _ kw _ _ _ => misc kw /\ pairs (present (children m))
  | NAttrs _ _ bd rc st dy =>
      pairs (optlist bd ++ optlist rc) /\ sorted st /\ ForallOrdPairs okp (ents st dy)
  | _ => pairs (present (children m))
  end.
Definition ltidy (m : node) : Prop := (forall f, In f (fields m) -> ~ wid f (nid m)) /\ lrest m.
Definition ltab (m : node) : Prop :=
  match m with
  | NAttrs _ _ bd _ st dy =>
      forall a, In a (map snd st ++ dy) -> below_ bd (a_key a) /\ prov (below_ bd) (a_value a)
  | _ => True
  end.
Definition tidy_ (n : node) : Prop := forall m, within n m -> ltidy m.
Definition ptidy (n : node) : Prop := forall m, node_of n m -> ltab m.
Definition ok (U : nat -> Prop) (n : node) : Prop := inU U n /\ tidy_ n.
Definition iv (lo hi : nat) : nat -> Prop := fun i => lo <= i < hi.
Definition D (lo hi : nat) (l : list node) : Prop :=
  Forall (ok (iv lo hi)) l /\ pairs l /\ Forall ptidy l.

(** * Elementary facts *)
Lemma within_trans x y z : within x y -> within y z -> within x z.
Proof. induction 1; intros; auto. eapply within_field; eauto. Qed.
Lemma wid_self n : wid n (nid n).
Proof. exists n. split; [constructor|auto]. Qed.
Lemma wid_in n m i : within n m -> wid m i -> wid n i.
Proof. intros H (x & W & E). exists x. split; auto. eapply within_trans; eauto. Qed.
Lemma wid_field n f i : In f (fields n) -> wid f i -> wid n i.
Proof. intros H. apply wid_in. eapply within_field; eauto. constructor. Qed.
Lemma wid_inv n i : wid n i -> i = nid n \/ exists f, In f (fields n) /\ wid f i.
Proof.
  intros (m & W & E). inversion W; subst; auto. right. exists c. split; auto. now exists m.
Qed.
Lemma wdisj_sym x y : wdisj x y -> wdisj y x.
Proof. intros H i A C. now apply (H i). Qed.
Lemma okp_sym x y : okp x y -> okp y x.
Proof.
  intros [H|(A & C & i1 & r1 & ex & p1 & d1 & i2 & r2 & p2 & d2 & E1 & E2 & N & W & N1 & N2)]; [left; now apply wdisj_sym|right].
  repeat split; auto. exists i2, r2, ex, p2, d2, i1, r1, p1, d1. repeat split; auto. now apply wdisj_sym.
Qed.
Lemma ok_in U n m : within n m -> ok U n -> ok U m.
Proof.
  intros W [A T]. split; [intros i H; apply A; eapply wid_in; eauto|]. intros x H. apply T. eapply within_trans; eauto.
Qed.
Lemma ok_field U n f : In f (fields n) -> ok U n -> ok U f.
Proof. intros H. apply ok_in. eapply within_field; eauto. constructor. Qed.
Lemma ok_weak (U V : nat -> Prop) n : (forall i, U i -> V i) -> ok U n -> ok V n.
Proof. intros H [A T]. split; auto. intros i W. auto. Qed.
Lemma ok_own U n : ok U n -> ok (wid n) n.
Proof. intros [_ T]. split; auto. now intros i. Qed.
Lemma child_field n f : In f (present (children n)) -> In f (fields n).
Proof. unfold fields. rewrite in_app_iff. auto. Qed.
Lemma node_within n m : node_of n m -> within n m.
Proof. induction 1; [constructor|]. eapply within_field; eauto. now apply child_field. Qed.
Lemma node_trans x y z : node_of x y -> node_of y z -> node_of x z.
Proof. induction 1; auto. intros. eapply node_child; eauto. Qed.
Lemma ptidy_in n m : node_of n m -> ptidy n -> ptidy m.
Proof. intros H P x N. apply P. eapply node_trans; eauto. Qed.

Lemma ok_make (U : nat -> Prop) m :
  U (nid m) -> (forall f, In f (fields m) -> ok U f /\ ~ wid f (nid m)) -> lrest m -> ok U m.
Proof.
  intros Um F R. split.
  - intros i H. apply wid_inv in H as [->|(f & I & W)]; auto. destruct (F _ I) as [[A _] _]. auto.
  - intros x H. inversion H; subst.
    + split; auto. intros f I. now apply F.
    + destruct (F _ H0) as [[_ T] _]. auto.
Qed.

(** * Lists of parts *)
Lemma D_nil a c : D a c [].
Proof. repeat constructor. Qed.
Lemma D_all a c l lo hi : D a c l -> lo <= a -> c <= hi -> Forall (ok (iv lo hi)) l.
Proof.
  intros (F & _) A C. eapply Forall_impl; [|exact F]. intros n. apply ok_weak. unfold iv. lia.
Qed.
Lemma D_mono a c l lo hi : D a c l -> lo <= a -> c <= hi -> D lo hi l.
Proof. intros H A C. split; [eapply D_all; eauto|]. apply H. Qed.
Lemma D_pairs a c l : D a c l -> pairs l.
Proof. intros (_ & P & _). exact P. Qed.
Definition aparts (l m : list node) : Prop := forall x y, In x l -> In y m -> wdisj x y.
Lemma aparts_iv a c l e f m : D a c l -> D e f m -> c <= e \/ f <= a -> aparts l m.
Proof.
  intros (F & _) (G & _) O x y X Y i Wx Wy. rewrite Forall_forall in F, G.
  destruct (F _ X) as [A _], (G _ Y) as [C _]. apply A in Wx. apply C in Wy. unfold iv in *. lia.
Qed.
Lemma aparts_app_r l m n : aparts l m -> aparts l n -> aparts l (m ++ n).
Proof. intros H K x y X Y. apply in_app_or in Y as [Y|Y]; [apply H|apply K]; auto. Qed.
Lemma aparts_app_l l m n : aparts l n -> aparts m n -> aparts (l ++ m) n.
Proof. intros H K x y X Y. apply in_app_or in X as [X|X]; [apply H|apply K]; auto. Qed.
Lemma aparts_nil_r l : aparts l [].
Proof. intros x y _ []. Qed.
Lemma pairs_app l m : pairs l -> pairs m -> aparts l m -> pairs (l ++ m).
Proof. apply FOP_app. Qed.
Lemma D_app a c l e f m lo hi : D a c l -> D e f m -> c <= e \/ f <= a -> lo <= a -> lo <= e -> c <= hi -> f <= hi -> D lo hi (l ++ m).
Proof.
  intros H K O A1 A2 A3 A4. repeat split.
  - apply Forall_app. split; eapply D_all; eauto.
  - apply pairs_app; [eapply D_pairs; eauto|eapply D_pairs; eauto|eapply aparts_iv; eauto].
  - apply Forall_app. split; [apply H|apply K].
Qed.
Lemma FOP_sub_l {A} (R : A -> A -> Prop) l m : ForallOrdPairs R (l ++ m) -> ForallOrdPairs R l.
Proof.
  induction l as [|x l IH]; intros H; [constructor|]. cbn [app] in H. inversion H; subst. constructor; auto.
  apply Forall_app in H2. tauto.
Qed.
Lemma FOP_sub_r {A} (R : A -> A -> Prop) l m : ForallOrdPairs R (l ++ m) -> ForallOrdPairs R m.
Proof. induction l as [|x l IH]; intros H; auto. cbn [app] in H. inversion H; subst. auto. Qed.
Lemma FOP_cross {A} (R : A -> A -> Prop) l m x y : ForallOrdPairs R (l ++ m) -> In x l -> In y m -> R x y.
Proof.
  induction l as [|z l IH]; intros H X Y; [contradiction|]. cbn [app] in H. inversion H; subst. destruct X as [->|X]; auto.
  rewrite Forall_forall in H2. apply H2. apply in_or_app. auto.
Qed.
Lemma D_app_l a c l m : D a c (l ++ m) -> D a c l.
Proof.
  intros (F & P & T). apply Forall_app in F as [F _]. apply Forall_app in T as [T _]. repeat split; auto.
  eapply FOP_sub_l; eauto.
Qed.
Lemma D_app_r a c l m : D a c (l ++ m) -> D a c m.
Proof.
  intros (F & P & T). apply Forall_app in F as [_ F]. apply Forall_app in T as [_ T]. repeat split; auto.
  eapply FOP_sub_r; eauto.
Qed.
Lemma D_cross a c l m : D a c (l ++ m) -> aparts l m.
Proof. intros (_ & P & _) x y X Y. eapply FOP_cross; eauto. Qed.

(** a node made of parts older than itself *)
Lemma D_mk lo i m :
  nid m = i -> lo <= i -> Forall (ok (iv lo i)) (fields m) -> lrest m -> ltab m -> Forall ptidy (present (children m)) -> D lo (S i) [m].
Proof.
  intros E L F R T P. rewrite Forall_forall in F. split; [|split].
  - constructor; [|constructor]. apply ok_make; auto.
    + unfold iv. lia.
    + intros f I. pose proof (F _ I) as K. split; [eapply ok_weak; [|exact K]; unfold iv; lia|].
      destruct K as [A _]. intros W. apply A in W. unfold iv in W. lia.
  - repeat constructor.
  - constructor; [|constructor]. intros x N. inversion N; subst; auto. rewrite Forall_forall in P. now apply (P _ H).
Qed.
Lemma D_leaf i m : nid m = i -> fields m = [] -> lrest m -> ltab m -> D i (S i) [m].
Proof.
  intros E F R T. apply D_mk; auto; rewrite ?F; auto. unfold fields in F. apply app_eq_nil in F as [-> _]. constructor.
Qed.
Lemma D_misc i r : D i (S i) [NMisc i r].
Proof. apply D_leaf; cbn; auto. constructor. Qed.
Lemma D_ident i r x : D i (S i) [NIdent i r x].
Proof. apply D_leaf; cbn; auto. constructor. Qed.
Lemma D_dot i r x y : D i (S i) [NDot i r x y].
Proof. apply D_leaf; cbn; auto. constructor. Qed.
Lemma D_op i r k : D i (S i) [NOp i r k].
Proof. apply D_leaf; cbn; auto. constructor. Qed.
Lemma present_some l : present (map Some l) = l.
Proof. unfold present. induction l as [|x l IH]; cbn; auto. now rewrite IH. Qed.
Lemma present_cons o l : present (o :: l) = optlist o ++ present l.
Proof. destruct o; reflexivity. Qed.
Lemma present_app l m : present (l ++ m) = present l ++ present m.
Proof. unfold present. apply flat_map_app. Qed.
Lemma interps_merge fs : interps (mergeFragments fs) = interps fs.
Proof.
  assert (Q : forall l : list (bytes + node), existsb (fun f => match f with inr _ => true | inl _ => false end) l = false ->
    interps l = []).
  { induction l as [|[x|x] l IH]; cbn; auto; discriminate. }
  unfold mergeFragments. destruct fs as [|f fs]; auto.
  destruct (existsb (fun f0 => match f0 with inr _ => true | inl _ => false end) (f :: fs)) eqn:E; auto.
  rewrite (Q _ E). reflexivity.
Qed.
