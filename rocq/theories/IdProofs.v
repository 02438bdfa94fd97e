(** For C73: in a parsed document identities, parents and scopes are told apart. *)
From Verif Require Import Base Diag LexModel AstModel PSupModel SemaModel SemaSpec SemaProofs ParseModel ParseSpec ParseTree ParseProofs
  NavModel NavSpec NavProofs VlaModel VlaSpec RefSpec IdSpec IdTree IdSema IdStep.

Local Notation within := ParseSpec.within.

(** * Two children of a node *)
Lemma FOP_two {A} (R : A -> A -> Prop) l x y : ForallOrdPairs R l -> In x l -> In y l -> x = y \/ R x y \/ R y x.
Proof. intros. now apply ForallOrdPairs_In with (l := l). Qed.
Lemma pairs_two l x y : pairs l -> In x l -> In y l -> x = y \/ wdisj x y.
Proof. intros P X Y. destruct (FOP_two _ _ _ _ P X Y) as [H|[H|H]]; auto. right. now apply wdisj_sym. Qed.
Lemma tidy_in n m : within n m -> tidy_ n -> tidy_ m.
Proof. intros W T x H. apply T. eapply within_trans; eauto. Qed.
Lemma tidy_field n f : In f (fields n) -> tidy_ n -> tidy_ f.
Proof. intros H. apply tidy_in. eapply within_field; eauto. constructor. Qed.
Lemma tidy_child n f : In f (present (children n)) -> tidy_ n -> tidy_ f.
Proof. intros H. apply tidy_field. now apply child_field. Qed.
Lemma tidy_self n : tidy_ n -> ltidy n.
Proof. intros T. apply T. constructor. Qed.
Lemma node_wid n m i : node_of n m -> nid m = i -> wid n i.
Proof. intros H E. exists m. split; auto. now apply node_within. Qed.

(** [c] is the keyword of the let expression [n], [d] its bindings *)
Definition kw_case (n c d : node) : Prop := misc c /\ attrs_rec d = Some c /\ let_keyword n d c.
Lemma in_let (kl : node) (a ki e : option node) c : In c (present [Some kl; a; ki; e]) -> c = kl \/ a = Some c \/ In c (optlist ki ++ optlist e).
Proof.
  rewrite !present_cons. cbn [optlist present flat_map app]. rewrite app_nil_r. intros [H|H]; auto.
  apply in_app_or in H as [H|H]; auto. destruct a; [|destruct H]. destruct H as [->|[]]. auto.
Qed.
Lemma two_children n c d : tidy_ n -> In c (present (children n)) -> In d (present (children n)) ->
  c = d \/ wdisj c d \/ kw_case n c d \/ kw_case n d c.
Proof.
  intros T C E. destruct (tidy_self _ T) as [_ R].
  assert (G : pairs (present (children n)) -> c = d \/ wdisj c d \/ kw_case n c d \/ kw_case n d c).
  { intros P. destruct (pairs_two _ _ _ P C E); auto. }
  destruct n; cbn [lrest] in R; try (apply G; exact R).
  - (* NAttrs *) destruct R as [P _]. apply G. cbn [children]. rewrite !present_cons. cbn [present flat_map]. now rewrite app_nil_r.
  - (* NLet *) destruct R as (M & A & P & Q). cbn [children] in C, E.
    assert (Qs : forall x y, In x (n :: optlist kwin ++ optlist e) -> In y (n :: optlist kwin ++ optlist e) -> x = y \/ wdisj x y).
    { intros x y X Y. exact (pairs_two _ _ _ Q X Y). }
    assert (Ps : forall x y, In x (optlist attrs ++ optlist kwin ++ optlist e) -> In y (optlist attrs ++ optlist kwin ++ optlist e) -> x = y \/ wdisj x y).
    { intros x y X Y. exact (pairs_two _ _ _ P X Y). }
    apply in_let in C. apply in_let in E.
    assert (In_a : forall x, attrs = Some x -> In x (optlist attrs ++ optlist kwin ++ optlist e)) by (intros x ->; left; reflexivity).
    assert (In_r : forall x, In x (optlist kwin ++ optlist e) -> In x (optlist attrs ++ optlist kwin ++ optlist e)) by (intros; apply in_or_app; auto).
    destruct C as [->|[C|C]], E as [->|[E|E]]; auto.
    + right. right. left. split; auto. split; auto. rewrite E. cbn. auto.
    + destruct (Qs n d); cbn [In]; auto.
    + right. right. right. split; auto. split; auto. rewrite C. cbn. auto.
    + destruct (Ps c d); auto.
    + destruct (Ps c d); auto.
    + destruct (Qs c n); cbn [In]; auto.
    + destruct (Ps c d); auto.
    + destruct (Ps c d); auto.
  - (* NLegacyLet *) destruct R as (M & A). cbn [children] in C, E. rewrite !present_cons in C, E. cbn [optlist present flat_map app] in C, E.
    rewrite app_nil_r in C, E.
    destruct attrs as [x|]; [|cbn [optlist] in C, E; destruct C as [<-|[]], E as [<-|[]]; auto].
    assert (Ax : attrs_rec x = Some n) by auto.
    destruct C as [<-|[<-|[]]], E as [<-|[<-|[]]]; auto.
    + right. right. left. split; auto. split; auto. cbn. auto.
    + right. right. right. split; auto. split; auto. cbn. auto.
  - (* NWith *) apply G. apply R.
Qed.
Lemma misc_node c x : misc c -> node_of c x -> x = c.
Proof. intros (i & r & ->) H. inversion H; subst; auto. destruct H0. Qed.
(** the keyword inside the bindings *)
Lemma rec_only d c x : tidy_ d -> misc c -> attrs_rec d = Some c -> node_of d x -> nid x = nid c -> x = c.
Proof.
  intros T M R N E. destruct d; try discriminate. cbn [attrs_rec] in R. subst rc.
  destruct (tidy_self _ T) as [F [P _]]. cbn [lrest] in P. inversion N; subst.
  - exfalso. apply (F c); [apply child_field; cbn [children]; rewrite !present_cons; apply in_or_app; right; left; reflexivity|].
    cbn [nid] in E |- *. rewrite E. apply wid_self.
  - cbn [children] in H. rewrite !present_cons in H. cbn [optlist present flat_map app] in H. apply in_app_or in H as [H|[<-|[]]].
    + exfalso. apply (FOP_cross wdisj _ _ c0 c P H (or_introl eq_refl) (nid c)); [eapply node_wid; eauto|apply wid_self].
    + eapply misc_node; eauto.
Qed.

(** * Identities *)
Lemma top_fresh n c x : tidy_ n -> In c (present (children n)) -> node_of c x -> nid x <> nid n.
Proof. intros T C N E. destruct (tidy_self _ T) as [F _]. apply (F c); [now apply child_field|]. eapply node_wid; eauto. Qed.
Lemma tidy_identified n : tidy_ n -> identified n.
Proof.
  intros T x y X. revert T y. induction X as [n|n c x C X IH]; intros T y Y E.
  - inversion Y as [|? d ? Dd N]; subst; auto. exfalso. now apply (top_fresh n d y).
  - inversion Y as [|? d ? Dd N]; subst; [exfalso; now apply (top_fresh y c x)|].
    destruct (two_children n c d T C Dd) as [->|[W|[(M & R & _)|(M & R & _)]]].
    + apply IH; auto. eapply tidy_child; eauto.
    + exfalso. apply (W (nid x)); eapply node_wid; eauto.
    + pose proof (misc_node _ _ M X) as ->. symmetry. apply (rec_only d); auto. eapply tidy_child; eauto.
    + pose proof (misc_node _ _ M N) as ->. apply (rec_only c); auto. eapply tidy_child; eauto.
Qed.

(** * Parents *)
Lemma misc_childless c x : misc c -> In x (present (children c)) -> False.
Proof. intros (i & r & ->) []. Qed.
Lemma one_parent_top n c d q c' : tidy_ n -> In c (present (children n)) -> In d (present (children n)) -> node_of d q ->
  In c' (present (children q)) -> nid c = nid c' -> let_keyword n q c.
Proof.
  intros T C Dd N C' E.
  assert (N' : node_of d c') by (eapply node_trans; eauto; eapply node_child; eauto; constructor).
  destruct (two_children n c d T C Dd) as [->|[W|[(M & R & L)|(M & R & L)]]].
  - exfalso. assert (Td : tidy_ d) by (eapply tidy_child; eauto).
    inversion N; subst; [now apply (top_fresh q c' c' Td C' (node_self _))|].
    apply (top_fresh d c c' Td H); auto. eapply node_trans; eauto. eapply node_child; eauto. constructor.
  - exfalso. apply (W (nid c)); [apply wid_self|eapply node_wid; eauto].
  - assert (Td : tidy_ d) by (eapply tidy_child; eauto).
    assert (c' = c) as -> by (apply (rec_only d); auto).
    destruct d; try discriminate. cbn [attrs_rec] in R. subst rc. destruct (tidy_self _ Td) as [F [P _]].
    inversion N; subst; auto. exfalso. cbn [children] in H. rewrite !present_cons in H. cbn [optlist present flat_map app] in H.
    apply in_app_or in H as [H|[<-|[]]].
    + apply (FOP_cross wdisj _ _ c0 c P H (or_introl eq_refl) (nid c)); [|apply wid_self].
      eapply node_wid; [|reflexivity]. eapply node_trans; eauto. eapply node_child; eauto. constructor.
    + pose proof (misc_node _ _ M H0) as ->. eapply misc_childless; eauto.
  - exfalso. pose proof (misc_node _ _ M N) as ->. eapply misc_childless; eauto.
Qed.
Lemma one_parent n p q c c' : tidy_ n -> node_of n p -> node_of n q ->
  In c (present (children p)) -> In c' (present (children q)) -> nid c = nid c' ->
  p = q \/ let_keyword p q c \/ let_keyword q p c'.
Proof.
  intros T X. revert T q. induction X as [n|n e p Ee X IH]; intros T q Y C C' E.
  - inversion Y as [|? d ? Dd N]; subst; auto. right. left. eapply one_parent_top; eauto.
  - inversion Y as [|? d ? Dd N]; subst; [right; right; apply (one_parent_top q c' e p c); auto|].
    destruct (two_children n e d T Ee Dd) as [->|[W|[(M & R & _)|(M & R & _)]]].
    + apply IH; auto. eapply tidy_child; eauto.
    + exfalso. apply (W (nid c)).
      * eapply node_wid; [|reflexivity]. eapply node_trans; eauto. eapply node_child; eauto. constructor.
      * rewrite E. eapply node_wid; [|reflexivity]. eapply node_trans; eauto. eapply node_child; eauto. constructor.
    + exfalso. pose proof (misc_node _ _ M X) as ->. eapply misc_childless; eauto.
    + exfalso. pose proof (misc_node _ _ M N) as ->. eapply misc_childless; eauto.
Qed.

(** * Scopes *)
Definition compat (x y : scope * node) : Prop := wdisj (snd x) (snd y) \/ (fst x = fst y /\ mates (snd x) (snd y)).
Lemma compat_sym x y : compat x y -> compat y x.
Proof.
  intros [H|(A & i1 & r1 & ex & p1 & d1 & i2 & r2 & p2 & d2 & E1 & E2 & N & W & N1 & N2)]; [left; now apply wdisj_sym|right].
  split; auto. exists i2, r2, ex, p2, d2, i1, r1, p1, d1. repeat split; auto. now apply wdisj_sym.
Qed.
Lemma FOP_map {A B} (R : A -> A -> Prop) (S' : B -> B -> Prop) (Q : A -> B -> Prop) l l' :
  (forall x y x' y', Q x x' -> Q y y' -> R x y -> S' x' y') -> Forall2 Q l l' -> ForallOrdPairs R l -> ForallOrdPairs S' l'.
Proof.
  intros H F. induction F as [|x x' l l' Q1 F IH]; intros P; [constructor|]. inversion P; subst. constructor; auto.
  clear IH H3 P. induction F as [|y y' l l' Q2 F IH]; [constructor|]. inversion H2; subst. constructor; eauto.
Qed.
Definition goes (inn : scope) (x : akind * node) (y : scope * node) : Prop :=
  snd x = snd y /\ (fst x = AK_InheritFrom -> fst y = inn).
Lemma set_goes out inn st dy : Forall2 (goes inn) (ents st dy) (in_set out inn st dy).
Proof.
  unfold ents, in_set. apply Forall2_app.
  - induction st as [|[x a] st IH]; cbn [map]; constructor; auto. unfold goes. cbn [fst snd]. split; auto. now intros ->.
  - induction dy as [|a dy IH]; cbn [flat_map app]; [constructor|]. constructor; [|constructor; auto]; unfold goes; cbn [fst snd]; auto.
Qed.
Lemma set_compat out inn st dy : ForallOrdPairs okp (ents st dy) -> ForallOrdPairs compat (in_set out inn st dy).
Proof.
  apply FOP_map with (Q := goes inn); [|apply set_goes].
  intros x y x' y' [E1 K1] [E2 K2] [H|(A & C & H)]; [left; now rewrite <- E1, <- E2|right].
  split; [rewrite K1, K2 by auto; reflexivity|now rewrite <- E1, <- E2].
Qed.
Lemma same_scope s l : pairs l -> ForallOrdPairs compat (map (pair s) l).
Proof.
  apply FOP_map with (Q := fun x y => y = (s, x)).
  - intros x y ? ? -> ->. now left.
  - induction l; cbn; constructor; auto.
Qed.
Lemma somes_present l : somes l = present l.
Proof. reflexivity. Qed.
(** the nodes that an entry leads to are in the set *)
Lemma set_in out inn i r bd rc st dy s m : In (s, m) (in_set out inn st dy) -> In m (fields (NAttrs i r bd rc st dy)).
Proof.
  unfold in_set, fields. intros H. apply in_or_app. right. apply in_app_or in H as [H|H].
  - apply in_map_iff in H as (p & E & I). injection E as _ <-. apply in_or_app. right. apply in_or_app. left.
    now apply (in_map (fun kv => a_value (snd kv))).
  - apply in_flat_map in H as (a & I & E). apply in_or_app. right. apply in_or_app. right. apply in_or_app.
    destruct E as [E|[E|[]]]; injection E as _ <-; [left|right]; now apply in_map.
Qed.
Lemma in_one {A} (x y : A) : In x [y] -> x = y.
Proof. intros [H|[]]. auto. Qed.

Lemma fields_child n f : In f (fields n) -> within n f.
Proof. intros H. eapply within_field; eauto. constructor. Qed.
Lemma member_default m d : In d (match m with NFormal _ _ _ _ (Some d) _ => [d] | _ => [] end) -> In d (fields m).
Proof.
  destruct m; try contradiction. destruct dflt as [x|]; [|contradiction]. intros [<-|[]]. unfold fields.
  repeat (apply in_or_app; right). left. reflexivity.
Qed.
Lemma wdisj_in x y x' y' : wdisj x y -> within x x' -> within y y' -> wdisj x' y'.
Proof. intros W X Y i A C. apply (W i); eapply wid_in; eauto. Qed.
Lemma default_in arg m : In m (defaults arg) -> within arg m.
Proof.
  destruct arg; try contradiction. unfold defaults. destruct formals as [f|]; [|contradiction]. destruct f; try contradiction.
  intros H. apply in_flat_map in H as (q & Q & H). apply member_default in H.
  eapply within_field; [|eapply within_field; [|eapply within_field; [exact H|constructor]]].
  - apply child_field. cbn [children]. rewrite !present_cons. apply in_or_app. right. left. reflexivity.
  - apply child_field. cbn [children]. now rewrite present_some.
Qed.
Lemma defaults_pairs arg : tidy_ arg -> pairs (defaults arg).
Proof.
  intros T. destruct arg; try constructor. unfold defaults. destruct formals as [f|]; [|constructor].
  assert (Tf : tidy_ f).
  { eapply tidy_child; eauto. cbn [children]. rewrite !present_cons. apply in_or_app. right. left. reflexivity. }
  destruct f; try constructor. destruct (tidy_self _ Tf) as [_ P]. cbn [lrest children] in P. rewrite present_some in P.
  clear T Tf. induction members as [|m ms IH]; [constructor|]. inversion P; subst. cbn [flat_map].
  apply pairs_app; auto.
  - destruct m; try constructor. destruct dflt; repeat constructor.
  - intros x y X Y. apply in_flat_map in Y as (q & Q & Y). apply member_default in X, Y. rewrite Forall_forall in H1.
    apply (wdisj_in m q); auto; now apply fields_child.
Qed.

Lemma enters_within s n s1 n1 : In (s1, n1) (enters s n) -> exists f, In f (fields n) /\ within f n1.
Proof.
  assert (G : In (s1, n1) (map (pair s) (somes (children n))) -> exists f, In f (fields n) /\ within f n1).
  { intros H. apply in_map_iff in H as (x & E & I). injection E as _ <-. exists x. split; [now apply child_field|constructor]. }
  destruct n; try exact G; cbn [enters]; try contradiction.
  - (* NAttrs *) intros H. exists n1. split; [|constructor]. destruct rc; eapply set_in; eauto.
  - (* NLet *) intros H.
    assert (Ge : forall s', In (s1, n1) (map (pair s') (somes [e])) -> exists f, In f (fields (NLet id r n kwin e attrs)) /\ within f n1).
    { intros s' K. apply in_map_iff in K as (x & E & I). injection E as _ <-. exists x. split; [|constructor]. apply child_field.
      cbn [children]. rewrite somes_present in I. rewrite !present_cons in *. rewrite !in_app_iff in *. tauto. }
    destruct attrs as [a|]; [|eauto]. destruct a; eauto. apply in_app_or in H as [H|H]; eauto.
    eexists. split; [|eapply fields_child, set_in; eauto]. apply child_field. cbn [children]. rewrite !present_cons, !in_app_iff. cbn. eauto.
  - (* NLegacyLet *) intros H. destruct attrs as [a|]; [|contradiction]. destruct a; try contradiction.
    exists (NAttrs id0 r0 body rc st dy). split; [|destruct rc; eapply fields_child, set_in; eauto].
    apply child_field. cbn [children]. rewrite !present_cons, !in_app_iff. cbn. eauto.
  - (* NWith *) intros H. exists n1. split; [|constructor]. apply child_field. cbn [children].
    apply in_app_or in H as [H|H]; apply in_map_iff in H as (x & E & I); injection E as _ <-;
      rewrite somes_present in I; rewrite !present_cons in *; rewrite !in_app_iff in *; tauto.
  - (* NLambda *) intros H. destruct arg as [a|], body as [bd|]; try contradiction. apply in_app_or in H as [H|H].
    + apply in_map_iff in H as (x & E & I). injection E as _ <-. exists a. split; [|now apply default_in].
      apply child_field. left. reflexivity.
    + apply in_one in H. injection H as _ ->. exists bd. split; [|constructor]. apply child_field. right. left. reflexivity.
Qed.
Lemma visit_within s n s' m : visit s n s' m -> within n m.
Proof.
  induction 1; [constructor|]. apply enters_within in H as (f & I & W). eapply within_field; eauto. eapply within_trans; eauto.
Qed.

Lemma enters_compat s n : tidy_ n -> ForallOrdPairs compat (enters s n).
Proof.
  intros T. destruct (tidy_self _ T) as [_ R].
  assert (G : pairs (present (children n)) -> ForallOrdPairs compat (map (pair s) (somes (children n)))).
  { apply same_scope. }
  destruct n; try (apply G; exact R); cbn [enters]; cbn [lrest] in R.
  - (* NVar *) constructor.
  - (* NAttrs *) destruct rc; apply set_compat; apply R.
  - (* NLet *) destruct R as (M & A & P & Q).
    assert (Ge : forall s', ForallOrdPairs compat (map (pair s') (somes [e]))).
    { intros s'. apply same_scope. destruct e; repeat constructor. }
    destruct attrs as [a|]; auto. destruct a; auto.
    assert (Ta : tidy_ (NAttrs id0 r0 body rc st dy)).
    { eapply tidy_child; eauto. cbn [children]. rewrite !present_cons, !in_app_iff. cbn. eauto. }
    apply FOP_app; [apply set_compat; apply (tidy_self _ Ta)|auto|].
    intros [sx x] [sy y] X Y. left. cbn [snd]. apply in_map_iff in Y as (y' & E & I). injection E as _ <-.
    apply (wdisj_in (NAttrs id0 r0 body rc st dy) y'); [|eapply fields_child, set_in; eauto|constructor].
    eapply (FOP_cross wdisj (optlist (Some (NAttrs id0 r0 body rc st dy)))); eauto; [left; reflexivity|].
    apply in_or_app. right. unfold somes in I. cbn in I. rewrite app_nil_r in I. exact I.
  - (* NLegacyLet *) destruct attrs as [a|]; [|constructor]. destruct a; try constructor.
    assert (Ta : tidy_ (NAttrs id0 r0 body rc st dy)).
    { eapply tidy_child; eauto. cbn [children]. rewrite !present_cons, !in_app_iff. cbn. eauto. }
    destruct rc; apply set_compat; apply (tidy_self _ Ta).
  - (* NWith *) destruct R as [_ P]. cbn [children] in P. rewrite !present_cons in P. apply FOP_app.
    + apply same_scope. destruct w; repeat constructor.
    + apply same_scope. destruct e; repeat constructor.
    + intros [sx x] [sy y] X Y. left. cbn [snd]. apply in_map_iff in Y as (y' & E & Y). injection E as _ <-.
      apply in_map_iff in X as (x' & E & X). injection E as _ <-. unfold somes in X, Y. cbn in X, Y. rewrite app_nil_r in X, Y.
      apply FOP_sub_r, FOP_sub_r in P. cbn [present flat_map] in P. rewrite app_nil_r in P. eapply FOP_cross; eauto.
  - (* NLambda *) destruct arg as [a|], body as [bd|]; try constructor. cbn [children] in R. rewrite !present_cons in R. cbn [optlist app] in R.
    assert (Ta : tidy_ a) by (eapply tidy_child; eauto; left; reflexivity).
    apply FOP_app; [apply same_scope; now apply defaults_pairs|repeat constructor|].
    intros [sx x] [sy y] X Y. left. cbn [snd]. apply in_one in Y. injection Y as _ ->. apply in_map_iff in X as (x' & E & X). injection E as _ <-.
    inversion R; subst. apply (wdisj_in a bd); [|now apply default_in|constructor]. rewrite Forall_forall in H1. apply H1. left. reflexivity.
Qed.
Lemma enters_tidy s n s1 n1 : tidy_ n -> In (s1, n1) (enters s n) -> tidy_ n1.
Proof.
  intros T H. apply enters_within in H as (f & I & W). eapply tidy_in; eauto. eapply tidy_field; eauto.
Qed.
Lemma enters_fresh s n s1 n1 i : tidy_ n -> In (s1, n1) (enters s n) -> wid n1 i -> i <> nid n.
Proof.
  intros T H W ->. apply enters_within in H as (f & I & X). destruct (tidy_self _ T) as [F _]. apply (F f I). eapply wid_in; eauto.
Qed.
Lemma visit_wid s n s' m : visit s n s' m -> wid n (nid m).
Proof. intros H. exists m. split; auto. eapply visit_within; eauto. Qed.
Lemma sel_enters s i r ex p d s1 n1 : In (s1, n1) (enters s (NSelect i r ex None (Some p) None d)) -> s1 = s /\ (n1 = ex \/ n1 = p).
Proof. intros [H|[H|[]]]; injection H as <- <-; auto. Qed.

Lemma tidy_visits s n s1 n1 : visit s n s1 n1 -> tidy_ n ->
  (forall s2 n2, visit s n s2 n2 -> nid n1 = nid n2 -> s1 = s2 /\ n1 = n2) /\
  (forall y s2 n2, mates n y -> tidy_ y -> visit s y s2 n2 -> nid n1 = nid n2 -> s1 = s2 /\ n1 = n2).
Proof.
  induction 1 as [s n|s n sa na s1 n1 I1 V1 IH]; intros T.
  - split.
    + intros s2 n2 V E. inversion V as [|? ? sb nb ? ? I2 V2]; subst; auto. exfalso.
      apply (enters_fresh s n sb nb (nid n2) T I2); auto. eapply visit_wid; eauto.
    + intros y s2 n2 (i1 & r1 & ex & p1 & d1 & i2 & r2 & p2 & d2 & -> & -> & N & W & N1 & N2) Ty V E. exfalso.
      cbn [nid] in E. inversion V as [|? ? sb nb ? ? I2 V2]; subst; [cbn [nid] in N; auto|].
      apply sel_enters in I2 as [-> [->| ->]].
      * destruct (tidy_self _ T) as [F _]. apply (F ex); [apply child_field; left; reflexivity|]. cbn [nid]. eapply visit_wid; eauto.
      * apply N2. eapply visit_wid; eauto.
  - assert (Ta : tidy_ na) by exact (enters_tidy _ _ _ _ T I1). destruct (IH Ta) as [IH1 IH2]. split.
    + intros s2 n2 V E. inversion V as [|? ? sb nb ? ? I2 V2]; subst.
      * exfalso. apply (enters_fresh s2 n2 sa na (nid n1) T I1); auto. eapply visit_wid; eauto.
      * assert (Tb : tidy_ nb) by exact (enters_tidy _ _ _ _ T I2).
        assert (Cm : (sa, na) = (sb, nb) \/ compat (sa, na) (sb, nb)).
        { destruct (FOP_two _ _ _ _ (enters_compat s n T) I1 I2) as [C|[C|C]]; auto. right. now apply compat_sym. }
        destruct Cm as [C|[C|[C M]]].
        -- injection C as <- <-. auto.
        -- exfalso. cbn [snd] in C. apply (C (nid n1)); [eapply visit_wid; eauto|rewrite E; eapply visit_wid; eauto].
        -- cbn [fst snd] in C, M. subst sb. eapply IH2; eauto.
    + intros y s2 n2 (i1 & r1 & ex & p1 & d1 & i2 & r2 & p2 & d2 & -> & -> & N & W & N1 & N2) Ty V E.
      apply sel_enters in I1 as [-> I1]. inversion V as [|? ? sb nb ? ? I2 V2]; subst.
      * exfalso. destruct I1 as [->| ->].
        -- destruct (tidy_self _ Ty) as [F _]. apply (F ex); [apply child_field; left; reflexivity|].
           cbn [nid] in E |- *. rewrite <- E. eapply visit_wid; eauto.
        -- apply N1. cbn [nid] in E. rewrite <- E. eapply visit_wid; eauto.
      * apply sel_enters in I2 as [-> I2]. destruct I1 as [->| ->], I2 as [->| ->].
        -- auto.
        -- exfalso. assert (Wd : wdisj ex p2).
           { destruct (tidy_self _ Ty) as [_ R]. cbn in R. inversion R; subst. inversion H1; subst. auto. }
           apply (Wd (nid n1)); [eapply visit_wid; eauto|rewrite E; eapply visit_wid; eauto].
        -- exfalso. assert (Wd : wdisj ex p1).
           { destruct (tidy_self _ T) as [_ R]. cbn in R. inversion R; subst. inversion H1; subst. auto. }
           apply (Wd (nid n1)); [rewrite E; eapply visit_wid; eauto|eapply visit_wid; eauto].
        -- exfalso. apply (W (nid n1)); [eapply visit_wid; eauto|rewrite E; eapply visit_wid; eauto].
Qed.
Lemma tidy_coherent primops n : tidy_ n -> coherent primops n.
Proof. intros T s1 n1 s2 n2 V1 V2 E. destruct (tidy_visits _ _ _ _ V1 T) as [H _]. auto. Qed.

(** * What can be visited *)
Section Doc.
Variables (src : bytes) (root : node) (ds : list diag).
Hypothesis HP : parse src = Ok (Some root, ds).
Lemma doc_tidy : tidy_ root.
Proof. destruct (parse_D _ _ _ HP) as (hi & F & _). inversion F; subst. apply H1. Qed.
Lemma doc_ptidy : ptidy root.
Proof. destruct (parse_D _ _ _ HP) as (hi & _ & _ & F). now inversion F; subst. Qed.
Lemma doc_typed m : within root m -> typed m.
Proof.
  intros W. pose proof (parse_ok src) as H. rewrite HP in H. destruct H as (_ & H & _).
  destruct (H root eq_refl) as ((k & F) & _). destruct (sok_local src m) as (_ & _ & T & _); auto. eapply within_sok; eauto. apply F.
Qed.
Definition pv (m : node) : Prop :=
  prov (node_of root) m \/ exists p q name, m = NAttrPath p q [name] [] /\ node_of root name.
Lemma pv_node m : node_of root m -> pv m.
Proof. left. now constructor. Qed.
Lemma set_entries out inn st dy s m : (forall a, In a (map snd st ++ dy) -> node_of root (a_key a) /\ prov (node_of root) (a_value a)) ->
  In (s, m) (in_set out inn st dy) -> prov (node_of root) m.
Proof.
  intros A H. unfold in_set in H. apply in_app_or in H as [H|H].
  - apply in_map_iff in H as (p & E & I). injection E as _ <-. apply A. apply in_or_app. left. now apply in_map.
  - apply in_flat_map in H as (a & I & E). assert (J : In a (map snd st ++ dy)) by (apply in_or_app; auto).
    destruct E as [E|[E|[]]]; injection E as _ <-; [constructor|]; now apply A.
Qed.
Lemma doc_set i r bd rc st dy : node_of root (NAttrs i r bd rc st dy) ->
  forall a, In a (map snd st ++ dy) -> node_of root (a_key a) /\ prov (node_of root) (a_value a).
Proof.
  intros N a I. destruct (doc_ptidy _ N a I) as [K V].
  assert (Up : forall m, below_ bd m -> node_of root m).
  { intros m (y & -> & Y). eapply node_trans; eauto. eapply node_child; eauto. left. reflexivity. }
  split; auto. eapply prov_mono; eauto.
Qed.
Lemma doc_child n m : node_of root n -> In m (present (children n)) -> node_of root m.
Proof. intros N I. eapply node_trans; eauto. eapply node_child; eauto. constructor. Qed.
Lemma doc_default a m : node_of root a -> In m (defaults a) -> node_of root m.
Proof.
  intros N H. destruct a; try contradiction. unfold defaults in H. destruct formals as [f|]; [|contradiction].
  assert (Nf : node_of root f).
  { apply (doc_child _ f N). cbn [children]. rewrite !present_cons. apply in_or_app. right. left. reflexivity. }
  destruct f; try contradiction. apply in_flat_map in H as (q & Q & H).
  assert (Nq : node_of root q) by (apply (doc_child _ q Nf); cbn [children]; now rewrite present_some).
  destruct q; try contradiction. destruct dflt as [d|]; [|contradiction]. destruct H as [<-|[]].
  pose proof (doc_typed _ (node_within _ _ Nq)) as (_ & _ & _ & _ & E). destruct ell as [e|]; [destruct E; discriminate|].
  apply (doc_child _ d Nq). cbn [children]. rewrite !present_cons. apply in_or_app. right. left. reflexivity.
Qed.
Lemma pv_enters s n s1 m : pv n -> In (s1, m) (enters s n) -> pv m.
Proof.
  intros [P|(p & q & name & -> & N)] H.
  2:{ cbn in H. destruct H as [H|[]]. injection H as _ <-. now apply pv_node. }
  destruct P as [n N|i r bd rc st dy O A|i r j x y N|i r p q ex name d Ne Nn].
  - assert (G : In (s1, m) (map (pair s) (somes (children n))) -> pv m).
    { intros K. apply in_map_iff in K as (x & E & I). injection E as _ <-. apply pv_node. eapply doc_child; eauto. }
    assert (GA : forall i r bd rc st dy out inn, node_of root (NAttrs i r bd rc st dy) -> In (s1, m) (in_set out inn st dy) -> pv m).
    { intros. left. eapply set_entries; eauto. eapply doc_set; eauto. }
    assert (GC : forall s' l, In (s1, m) (map (pair s') (somes l)) -> (forall x, In x (present l) -> In x (present (children n))) -> pv m).
    { intros s' l K L. apply in_map_iff in K as (x & E & I). injection E as _ <-. apply pv_node. eapply doc_child; eauto. }
    destruct n; try (apply G; exact H); cbn [enters] in H; try contradiction.
    + destruct rc; eauto.
    + assert (Se : forall x, In x (present [e]) -> In x (present (children (NLet id r n kwin e attrs)))).
      { intros x. cbn [children]. rewrite !present_cons, !in_app_iff. tauto. }
      destruct attrs as [a|]; [|eauto].
      assert (Na : node_of root a).
      { apply (doc_child _ a N). cbn [children]. rewrite !present_cons, !in_app_iff. cbn. auto. }
      destruct a; eauto. apply in_app_or in H as [H|H]; eauto.
    + destruct attrs as [a|]; [|contradiction].
      assert (Na : node_of root a).
      { apply (doc_child _ a N). cbn [children]. rewrite !present_cons, !in_app_iff. cbn. auto. }
      destruct a; try contradiction. destruct rc; eauto.
    + apply in_app_or in H as [H|H]; eapply GC; eauto; intros x; cbn [children]; rewrite !present_cons, !in_app_iff; tauto.
    + destruct arg as [a|], body as [bd|]; try contradiction.
      assert (Na : node_of root a) by (apply (doc_child _ a N); left; reflexivity).
      apply in_app_or in H as [H|H].
      * apply in_map_iff in H as (x & E & I). injection E as _ <-. apply pv_node. eapply doc_default; eauto.
      * apply in_one in H. injection H as _ ->. apply pv_node. apply (doc_child _ _ N). right. left. reflexivity.
  - left. cbn [enters] in H. destruct rc; eapply set_entries; eauto.
  - contradiction.
  - apply sel_enters in H as [-> [->| ->]]; [now apply pv_node|]. right. eauto.
Qed.
Lemma pv_visit s n s1 m : visit s n s1 m -> pv n -> pv m.
Proof. induction 1; auto. intros P. apply IHvisit. eapply pv_enters; eauto. Qed.
Lemma doc_visit s s1 m : visit s root s1 m -> pv m.
Proof. intros V. eapply pv_visit; eauto. apply pv_node. constructor. Qed.

Lemma doc_with s s1 i r kw semi w e : visit s root s1 (NWith i r kw semi w e) -> node_of root (NWith i r kw semi w e).
Proof. intros V. destruct (doc_visit _ _ _ V) as [P|(p & q & name & E & _)]; [|discriminate]. now inversion P. Qed.
(** a declared name is written in the document, and is not a keyword *)
Lemma find_in {A} (f : A -> bool) l x : find f l = Some x -> In x l.
Proof. intros H. now apply find_some in H. Qed.
Lemma params_in a x nd role : node_of root a -> In (x, (nd, role)) (params a) -> node_of root nd /\ kind_of nd = NK_Identifier.
Proof.
  intros N H. destruct a; try contradiction. unfold params in H.
  pose proof (doc_typed _ (node_within _ _ N)) as (Ti & _).
  assert (Gi : forall q, ident = Some q -> node_of root q /\ kind_of q = NK_Identifier).
  { intros q ->. split; [|exact Ti]. apply (doc_child _ q N). left. reflexivity. }
  destruct formals as [f|].
  - assert (Nf : node_of root f).
    { apply (doc_child _ f N). cbn [children]. rewrite !present_cons. apply in_or_app. right. left. reflexivity. }
    destruct f; try (destruct ident; contradiction).
    assert (H' : (exists q, ident = Some q /\ nd = q) \/ exists p m i r c q d e, In p dedup /\ In m members /\
      m = NFormal i r c (Some q) d e /\ nd = q).
    { destruct ident as [q0|].
      - apply in_app_or in H as [H|H].
        + left. destruct (existsb _ _); [contradiction|]. apply in_one in H. injection H as _ <- _. eauto.
        + right. apply in_flat_map in H as (p & Ip & H). destruct (find _ members) as [m|] eqn:Ef; [|contradiction].
          apply find_in in Ef. destruct m; try contradiction. destruct ident; [|contradiction]. apply in_one in H. injection H as _ <- _.
          repeat eexists; eauto.
      - right. cbn [app] in H. apply in_flat_map in H as (p & Ip & H). destruct (find _ members) as [m|] eqn:Ef; [|contradiction].
        apply find_in in Ef. destruct m; try contradiction. destruct ident; [|contradiction]. apply in_one in H. injection H as _ <- _.
        repeat eexists; eauto. }
    destruct H' as [(q & E & ->)|(p & m & i & rr & c & q & d & e & _ & Im & -> & ->)]; [auto|].
    assert (Nm : node_of root (NFormal i rr c (Some q) d e)) by (apply (doc_child _ _ Nf); cbn [children]; now rewrite present_some).
    pose proof (doc_typed _ (node_within _ _ Nm)) as (_ & Tq & _ & _ & E). split; [|exact Tq].
    destruct e as [e|]; [destruct E; discriminate|]. apply (doc_child _ _ Nm). left. reflexivity.
  - destruct ident as [q|]; [|contradiction]. apply in_one in H. injection H as _ -> _. auto.
Qed.
Lemma fields_key role st x nd role' : In (x, (nd, role')) (fields_of role st) -> exists p, In p st /\ nd = a_key (snd p).
Proof. intros H. apply in_map_iff in H as (p & E & I). injection E as _ <- _. eauto. Qed.
Lemma set_key i r bd rc st dy p : within root (NAttrs i r bd rc st dy) ->
  (forall a, In a (map snd st ++ dy) -> node_of root (a_key a) /\ prov (node_of root) (a_value a)) -> In p st ->
  node_of root (a_key (snd p)) /\ kind_of (a_key (snd p)) = NK_AttrName.
Proof.
  intros W A I. split; [apply A; apply in_or_app; left; now apply in_map|].
  pose proof (doc_typed _ W) as (_ & _ & F & _). rewrite Forall_forall in F. now apply F.
Qed.
Lemma doc_declared s sc o who names x nd role : visit s root sc o -> opens o = Some (Binds who names) -> In (x, (nd, role)) names ->
  node_of root nd /\ (kind_of nd = NK_Identifier \/ kind_of nd = NK_AttrName).
Proof.
  intros V O I. pose proof (visit_within _ _ _ _ V) as W.
  destruct (doc_visit _ _ _ V) as [P|(p & q & name & -> & _)]; [|discriminate].
  assert (GA : forall i r bd rc st dy src, within root (NAttrs i r bd rc st dy) ->
    (forall a, In a (map snd st ++ dy) -> node_of root (a_key a) /\ prov (node_of root) (a_value a)) ->
    names = fields_of src st -> node_of root nd /\ (kind_of nd = NK_Identifier \/ kind_of nd = NK_AttrName)).
  { intros i r bd rc st dy z Wa A ->. apply fields_key in I as (p & Ip & ->). destruct (set_key _ _ _ _ _ _ _ Wa A Ip). auto. }
  destruct P as [n N|i r bd rc st dy Q A|i r j y z N|i r p q ex name d Ne Nn]; try discriminate.
  - destruct n; try discriminate; cbn [opens] in O.
    + destruct rc; [|discriminate]. injection O as <- <-. eapply GA; eauto. eapply doc_set; eauto.
    + destruct attrs as [a|]; [|injection O as <- <-; contradiction].
      assert (Na : node_of root a).
      { apply (doc_child _ a N). cbn [children]. rewrite !present_cons, !in_app_iff. cbn. auto. }
      destruct a; injection O as <- <-; try contradiction. exact (GA _ _ _ _ _ _ _ (node_within _ _ Na) (doc_set _ _ _ _ _ _ Na) eq_refl).
    + destruct attrs as [a|]; [|discriminate].
      assert (Na : node_of root a).
      { apply (doc_child _ a N). cbn [children]. rewrite !present_cons, !in_app_iff. cbn. auto. }
      destruct a; try discriminate. destruct rc; [|discriminate]. injection O as <- <-. exact (GA _ _ _ _ _ _ _ (node_within _ _ Na) (doc_set _ _ _ _ _ _ Na) eq_refl).
    + destruct arg as [a|]; [|discriminate]. destruct body; [|discriminate]. injection O as <- <-.
      destruct (params_in a x nd role); auto. apply (doc_child _ a N). left. reflexivity.
  - cbn [opens] in O. destruct rc; [|discriminate]. injection O as <- <-. eapply GA; eauto.
Qed.
Lemma doc_marked primops : marked primops root.
Proof.
  intros i r kw semi we e N. assert (Ik : In kw (present (children (NWith i r kw semi we e)))) by (left; reflexivity).
  pose proof (doc_typed _ (node_within _ _ N)) as (Mk & _). split.
  - intros sc' i' r' kw' semi' we' e' V E. apply doc_with in V.
    destruct (one_parent root (NWith i' r' kw' semi' we' e') (NWith i r kw semi we e) kw' kw doc_tidy V N) as [H|[[]|[]]]; auto.
    left. reflexivity.
  - intros sc' o x nd (V & who & names & role & O & I) E. destruct (doc_declared _ _ _ _ _ _ _ _ V O I) as [Nd K].
    assert (nd = kw) as -> by (apply (tidy_identified root doc_tidy); auto; exact (doc_child _ _ N Ik)).
    unfold is_kind in Mk. rewrite Mk in K. destruct K; discriminate.
Qed.
End Doc.
Lemma parse_identified src root ds : parse src = Ok (Some root, ds) -> identified root.
Proof. intros H. apply tidy_identified. eapply doc_tidy; eauto. Qed.
Lemma parse_coherent src root ds primops : parse src = Ok (Some root, ds) -> coherent primops root.
Proof. intros H. apply tidy_coherent. eapply doc_tidy; eauto. Qed.
Lemma parse_marked src root ds primops : parse src = Ok (Some root, ds) -> marked primops root.
Proof. intros H. eapply doc_marked; eauto. Qed.
Lemma parse_one_parent src root ds p q n : parse src = Ok (Some root, ds) -> node_of root p -> node_of root q ->
  In n (present (children p)) -> In n (present (children q)) -> p = q \/ let_keyword p q n \/ let_keyword q p n.
Proof. intros H P Q A C. eapply one_parent; eauto. eapply doc_tidy; eauto. Qed.
Lemma chain_in root n l : chain root n l -> node_of root n.
Proof. induction 1; [constructor|]. eapply node_trans; eauto. eapply node_child; eauto. constructor. Qed.
Lemma parse_one_way src root ds n l l' : parse src = Ok (Some root, ds) -> (forall p q, node_of root p -> ~ let_keyword p q n) ->
  chain root n l -> chain root n l' -> l = l'.
Proof.
  intros H K C. revert K l'. induction C as [|n p l I C IH]; intros K l' C'.
  - inversion C' as [|? p' l2 I' C2]; subst; auto. exfalso. exact (root_no_child _ p' (chain_in _ _ _ C2) I').
  - inversion C' as [|? p' l2 I' C2]; subst; [exfalso; exact (root_no_child _ p (chain_in _ _ _ C) I)|].
    pose proof (chain_in _ _ _ C) as N. pose proof (chain_in _ _ _ C2) as N2.
    destruct (parse_one_parent _ _ _ p p' n H N N2 I I') as [<-|[L|L]]; [|now elim (K p p')|now elim (K p' p)].
    f_equal. apply IH; auto. intros q1 q2 Q L. pose proof (doc_typed _ _ _ H _ (node_within _ _ Q)) as T.
    assert (M : kind_of p = NK_Misc).
    { destruct q1; try contradiction; cbn [let_keyword] in L; destruct attrs; try contradiction; destruct L as [_ ->]; apply T. }
    destruct p; try discriminate. destruct I.
Qed.
