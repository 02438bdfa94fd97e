(** What the lowering of bindings keeps in view of the semantic tokens. *)
From Verif Require Import Base Diag LexModel AstModel PSupModel SemaModel SemaProofs SeenBase.

(** ** what the lowering of bindings keeps in view *)
Inductive shown : node -> node -> Prop :=
| shown_plain n : attrs_sema n = None -> shown n n
| shown_static n sa x a w : attrs_sema n = Some sa -> In (x, a) (sa_static sa) -> a_kind a = AK_Plain -> shown (a_value a) w -> shown n w
| shown_value n sa a w : attrs_sema n = Some sa -> In a (sa_dynamic sa) -> shown (a_value a) w -> shown n w.
Definition insh (sa : sema) (w : node) : Prop :=
  (exists x a, In (x, a) (sa_static sa) /\ a_kind a = AK_Plain /\ shown (a_value a) w) \/
  (exists a, In a (sa_dynamic sa) /\ shown (a_value a) w).
Lemma shown_set n sa w : attrs_sema n = Some sa -> (shown n w <-> insh sa w).
Proof.
  intros E. split.
  - intros H. inversion H as [n0 H0|n0 sa0 x a w0 H0 I K S|n0 sa0 a w0 H0 I S]; subst; rewrite E in H0; try discriminate H0; injection H0 as <-.
    + left. eauto.
    + right. exists a. auto.
  - intros [(x & a & I & K & S)|(a & I & S)]; [eapply shown_static|eapply shown_value]; eauto.
Qed.
(** an attribute that is inherited is not a set *)
Inductive tamed : sema -> Prop :=
| tamed_i sa : (forall x a, In (x, a) (sa_static sa) -> a_kind a <> AK_Plain -> attrs_sema (a_value a) = None) ->
    (forall x a i, In (x, a) (sa_static sa) -> attrs_sema (a_value a) = Some i -> tamed i) -> tamed sa.
Definition entry_ok (a : attribute) : Prop :=
  (a_kind a <> AK_Plain -> attrs_sema (a_value a) = None) /\ forall i, attrs_sema (a_value a) = Some i -> tamed i.
Lemma tamed_iff sa : tamed sa <-> forall x a, In (x, a) (sa_static sa) -> entry_ok a.
Proof.
  split.
  - intros [sa0 A B] x a I. split; [eapply A; eauto|intros i; eapply B; eauto].
  - intros H. constructor; intros x a; intros; eapply H; eauto.
Qed.
Lemma sinsert_inv k v m p : In p (sinsert k v m) -> p = (k, v) \/ In p m.
Proof.
  induction m as [|[k' v'] m IH]; cbn [sinsert]; [intros [<-|[]]; auto|]. destruct (bytes_eqb k k'); [intros [<-|I]; auto; right; now right|].
  destruct (bytes_ltb k k'); [intros [<-|I]; auto|]. intros [<-|I]; [right; now left|]. destruct (IH I); auto. right. now right.
Qed.
Lemma tamed_put k new st dy : tamed (SA st dy) -> entry_ok new -> tamed (SA (sinsert k new st) dy).
Proof. rewrite !tamed_iff. intros T E x a I. apply sinsert_inv in I as [[= -> ->]|I]; auto. eapply T; exact I. Qed.
Lemma tamed_dyn st dy dy' : tamed (SA st dy) -> tamed (SA st dy').
Proof. rewrite !tamed_iff. auto. Qed.
Lemma tamed_empty : tamed sa_empty.
Proof. apply tamed_iff. intros x a []. Qed.
Lemma merge_from y : forall x s z s', mergeStatic x y s = Ok (z, s') -> forall p, In p z -> In p x \/ In p y.
Proof.
  induction y as [|[k v] y IH]; intros x s z s' H p I; cbn [mergeStatic] in H; [rt H; auto|]. destruct (sfind k x).
  - pb H u s1 D. destruct (IH _ _ _ _ H p I); auto. right. now right.
  - destruct (IH _ _ _ _ H p I) as [J|J]; [|right; now right]. apply sinsert_inv in J as [-> |J]; auto. right. now left.
Qed.
Lemma merge_shown x y s z s' : mergeAttrSets x y s = Ok (z, s') -> tamed x -> tamed y ->
  tamed z /\ (cnt s' = cnt s -> forall w, insh x w \/ insh y w -> insh z w).
Proof.
  unfold mergeAttrSets. intros H Tx Ty. pb H st s1 M. rt H. split.
  - rewrite tamed_iff in *. intros k a I. destruct (merge_from _ _ _ _ _ M _ I); eauto.
  - apply merge_keeps in M as [M K]. intros E w. destruct (K E) as [K1 K2].
    intros [[(k & a & I & S)|(a & I & S)]|[(k & a & I & S)|(a & I & S)]]; [left|right|left|right]; cbn [sa_static sa_dynamic].
    + exists k, a. auto.
    + exists a. split; auto. apply in_or_app. auto.
    + exists k, a. auto.
    + exists a. split; auto. apply in_or_app. auto.
Qed.
Lemma put_sh k new st dy w : (forall old, sfind k st = Some old -> a_kind old = AK_Plain -> shown (a_value old) w -> a_kind new = AK_Plain /\ shown (a_value new) w) ->
  insh (SA st dy) w -> insh (SA (sinsert k new st) dy) w.
Proof.
  intros F [(x & a & I & K & S)|D]; [left|right; exact D]. cbn [sa_static] in *.
  destruct (sinsert_keep k new st _ I) as [J|[J1 J2]]; [exists x, a; auto|]. exists k, new. split; [apply sinsert_new|eapply F; eauto].
Qed.
Lemma put_sh_new k new st dy w : a_kind new = AK_Plain -> shown (a_value new) w -> insh (SA (sinsert k new st) dy) w.
Proof. intros K S. left. exists k, new. split; [apply sinsert_new|auto]. Qed.
Lemma dyn_sh st dy a w : insh (SA st dy) w -> insh (SA st (dy ++ [a])) w.
Proof. intros [H|(c & I & S)]; [now left|right]. exists c. split; auto. cbn in *. apply in_or_app. auto. Qed.
Lemma dyn_sh_new st dy a w : shown (a_value a) w -> insh (SA st (dy ++ [a])) w.
Proof. intros S. right. exists a. split; auto. cbn. apply in_or_app. right. now left. Qed.
Definition settame (e : option node) : Prop := forall v i, e = Some v -> attrs_sema v = Some i -> tamed i.
Definition shkept (sa sa' : sema) (e : option node) : Prop :=
  (forall w, insh sa w -> insh sa' w) /\ (forall v, e = Some v -> forall w, shown v w -> insh sa' w).
Lemma sfind_ok st dy k v : tamed (SA st dy) -> sfind k st = Some v -> entry_ok v.
Proof. rewrite tamed_iff. intros T F. apply sfind_in in F. eapply T; exact F. Qed.
Lemma plain_of v i : entry_ok v -> attrs_sema (a_value v) = Some i -> a_kind v = AK_Plain.
Proof. intros [A _] E. destruct (a_kind v) eqn:K; auto; rewrite A in E; discriminate. Qed.
Lemma replaced v m inner : entry_ok v -> attrs_sema (a_value v) = Some inner -> tamed m -> entry_ok (a_kind v, a_key v, with_sema (a_value v) m).
Proof.
  intros O E T. pose proof (plain_of _ _ O E) as K. split; cbn [a_kind a_value fst snd]; fold (a_kind v).
  - intros N. now elim N.
  - intros i Ei. rewrite (with_sema_set _ _ _ E) in Ei. now injection Ei as <-.
Qed.

Lemma insert_sh sa name e s sa' s' : insertAttr sa name e AK_Plain s = Ok (sa', s') -> tamed sa -> settame e ->
  tamed sa' /\ (cnt s' = cnt s -> shkept sa sa' e).
Proof.
  destruct sa as [st dy]. intros H T Te. unfold insertAttr in H. cbn [sa_static sa_dynamic] in H. destruct (staticName name) as [sn|] eqn:Sn.
  - destruct (sfind sn st) as [v|] eqn:F.
    + assert (Dup : forall s0, (do! dupAttr sn (nrange name) (nrange (a_key v)) in ret (SA st dy)) s0 = Ok (sa', s') -> sa' = SA st dy /\ cnt s' = S (cnt s0)).
      { intros s0 D. pb D u s1 D1. rt D. apply dup_ok in D1. auto. }
      pose proof (sfind_ok _ _ _ _ T F) as O.
      destruct (attrs_sema (a_value v)) as [xs|] eqn:Xs; [|apply Dup in H as [-> H]; split; [exact T|intros; lia]].
      destruct e as [en|]; [|apply Dup in H as [-> H]; split; [exact T|intros; lia]].
      destruct (attrs_sema en) as [ys|] eqn:Ys; [|apply Dup in H as [-> H]; split; [exact T|intros; lia]].
      pb H u s1 C. apply check_ok in C. pb H m s2 M. rt H.
      assert (Mono : cnt s1 <= cnt s2) by (apply merge_sets in M; tauto).
      apply merge_shown in M as [Tm M]; [|now apply O|now apply (Te en)]. split; [apply tamed_put; auto; eapply replaced; eauto|].
      intros E. assert (E1 : cnt s2 = cnt s1) by lia. specialize (M E1). pose proof (plain_of _ _ O Xs) as K.
      assert (V : forall w, shown (with_sema (a_value v) m) w <-> insh m w) by (intros w; apply shown_set; eapply with_sema_set; eauto).
      split.
      * intros w. apply put_sh. intros old Fo Ko So. rewrite F in Fo. injection Fo as <-. split; [exact K|]. apply V. apply M. left. apply (shown_set _ _ w Xs). exact So.
      * intros v0 [= <-] w Sw. apply put_sh_new; [exact K|]. apply V, M. right. now apply (shown_set _ _ w Ys).
    + destruct e as [v|]; rt H.
      * split; [apply tamed_put; auto; split; [intros N; now elim N|intros i Ei; now apply (Te v)]|]. intros _. split.
        -- intros w. apply put_sh. intros old Fo. rewrite F in Fo. discriminate Fo.
        -- intros v0 [= <-] w Sw. now apply put_sh_new.
      * split; auto. intros _. split; auto. intros v0 Q0. discriminate Q0.
  - destruct e as [v|]; rt H.
    + split; [eapply tamed_dyn; exact T|]. intros _. split; [intros w; apply dyn_sh|]. intros v0 [= <-] w Sw. now apply dyn_sh_new.
    + split; auto. intros _. split; auto. intros v0 Q0. discriminate Q0.
Qed.
Lemma add_sh path : forall sa e s sa' s', addAttr sa path e s = Ok (sa', s') -> tamed sa -> settame e ->
  tamed sa' /\ (cnt s' = cnt s -> shkept sa sa' e).
Proof.
  induction path as [|name path IH]; intros sa e s sa' s' H T Te; [discriminate H|].
  cbn [addAttr] in H. destruct path as [|n2 path]; [eapply insert_sh; eauto|].
  set (rest := n2 :: path) in *. clearbody rest. destruct sa as [st dy]. cbn [sa_static sa_dynamic] in H.
  destruct (staticName name) as [sn|] eqn:Sn.
  - destruct (sfind sn st) as [v|] eqn:F.
    + assert (Dup : forall s0, (do! dupAttr sn (nrange name) (nrange (a_key v)) in ret (SA st dy)) s0 = Ok (sa', s') -> sa' = SA st dy /\ cnt s' = S (cnt s0)).
      { intros s0 D. pb D u s1 D1. rt D. apply dup_ok in D1. auto. }
      pose proof (sfind_ok _ _ _ _ T F) as O.
      destruct (SemaModel.fromInherit v); [apply Dup in H as [-> H]; split; [exact T|intros; lia]|].
      destruct (attrs_sema (a_value v)) as [inner|] eqn:Xs; [|apply Dup in H as [-> H]; split; [exact T|intros; lia]].
      pb H inner' s1 A. rt H. apply IH in A as [A K]; [|now apply O|exact Te]. split; [apply tamed_put; auto; eapply replaced; eauto|].
      intros E. destruct (K E) as [K1 K2]. pose proof (plain_of _ _ O Xs) as Kp.
      assert (V : forall w, shown (with_sema (a_value v) inner') w <-> insh inner' w) by (intros w; apply shown_set; eapply with_sema_set; eauto).
      split.
      * intros w. apply put_sh. intros old Fo Ko So. rewrite F in Fo. injection Fo as <-. split; [exact Kp|]. apply V, K1. now apply (shown_set _ _ w Xs).
      * intros v0 E0 w Sw. apply put_sh_new; [exact Kp|]. apply V. eapply K2; eauto.
    + pb H inner' s1 A. pb H n s2 M. rt H. apply nested_ok in M as [M V]. pose proof (proj1 (add_keeps _ _ _ _ _ _ A)) as Mono.
      apply IH in A as [A K]; [|apply tamed_empty|exact Te]. split.
      * apply tamed_put; auto. split; [intros N; now elim N|]. intros i Ei. cbn in Ei. rewrite V in Ei. now injection Ei as <-.
      * intros E. assert (E1 : cnt s1 = cnt s) by lia. destruct (K E1) as [K1 K2]. split.
        -- intros w. apply put_sh. intros old Fo. rewrite F in Fo. discriminate Fo.
        -- intros v0 E0 w Sw. apply put_sh_new; [reflexivity|]. apply (shown_set _ _ w V). eapply K2; eauto.
  - pb H inner' s1 A. pb H n s2 M. rt H. apply nested_ok in M as [M V]. pose proof (proj1 (add_keeps _ _ _ _ _ _ A)) as Mono.
    apply IH in A as [A K]; [|apply tamed_empty|exact Te]. split; [eapply tamed_dyn; exact T|].
    intros E. assert (E1 : cnt s1 = cnt s) by lia. destruct (K E1) as [K1 K2]. split.
    + intros w. apply dyn_sh.
    + intros v0 E0 w Sw. apply dyn_sh_new. apply (shown_set _ _ w V). eapply K2; eauto.
Qed.
Lemma desugar_plain name e s p s' : desugarInheritExpr name e s = Ok (p, s') -> attrs_sema (fst p) = None.
Proof.
  unfold desugarInheritExpr. destruct e as [ex|]; intros H.
  - pb H p1 s1 F1. pb H i1 s2 F2. rt H. reflexivity.
  - destruct name; try discriminate H. destruct name; try discriminate H. pb H v s1 F. rt H. reflexivity.
Qed.
Lemma inherit_sh names : forall sa e s sa' s', lowerInherit sa names e s = Ok (sa', s') -> tamed sa ->
  tamed sa' /\ (forall w, insh sa w -> insh sa' w).
Proof.
  induction names as [|n names IH]; intros sa e s sa' s' H T; cbn [lowerInherit] in H; [rt H; auto|].
  pb H p s1 D. destruct p as [v k]. pb H sa1 s2 L. apply desugar_plain in D. cbn [fst] in D.
  assert (St : tamed sa1 /\ (forall w, insh sa w -> insh sa1 w)).
  { destruct sa as [st dy]. unfold lowerInheritName in L. cbn [sa_static sa_dynamic] in L. destruct (staticName n) as [sn|].
    - destruct (sfind sn st) as [prev|] eqn:F; [pb L u s3 D3; rt L; auto|]. rt L. split.
      + apply tamed_put; auto. split; cbn [a_value snd]; [auto|]. intros i Ei. rewrite D in Ei. discriminate Ei.
      + intros w. apply put_sh. intros old Fo. rewrite F in Fo. discriminate Fo.
    - pb L f s3 D3. pb L u s4 D4. rt L. auto. }
  destruct St as [St1 St2]. apply IH in H as [H1 H2]; auto.
Qed.
Definition bval (q : node) : option node := match q with NBinding _ _ _ v _ => v | _ => None end.
Lemma binds_sh bs : forall sa s sa' s', lowerBinds sa bs s = Ok (sa', s') -> tamed sa -> Forall (fun q => settame (bval q)) bs ->
  tamed sa' /\ (cnt s' = cnt s -> (forall w, insh sa w -> insh sa' w) /\ Forall (fun q => forall v, bval q = Some v -> forall w, shown v w -> insh sa' w) bs).
Proof.
  induction bs as [|q bs IH]; intros sa s sa' s' H T F; cbn [lowerBinds] in H; [rt H; split; auto|].
  inversion F as [|q0 l0 Fq Fb]; subst.
  assert (St : exists sa1 s1, lowerBinds sa1 bs s1 = Ok (sa', s') /\ cnt s <= cnt s1 /\ tamed sa1 /\
      (cnt s1 = cnt s -> (forall w, insh sa w -> insh sa1 w) /\ forall v, bval q = Some v -> forall w, shown v w -> insh sa1 w)).
  { destruct q; try discriminate H.
    - pb H sa1 s1 A. exists sa1, s1. split; [exact H|]. split; [now apply add_keeps in A|]. apply add_sh in A as [A1 A2]; auto.
    - pb H sa1 s1 A. exists sa1, s1. split; [exact H|]. split; [now apply inherit_keeps in A|]. apply inherit_sh in A as [A1 A2]; auto. split; auto.
      intros _. split; auto. cbn. intros v Q0. discriminate Q0. }
  destruct St as (sa1 & s1 & L & C1 & T1 & C2). pose proof (proj1 (binds_keep _ _ _ _ _ L)) as Mono. apply IH in L as [L1 L2]; auto.
  split; auto. intros E. destruct C2 as [C2 C3]; [lia|]. destruct L2 as [L2 L3]; [lia|]. split; auto. constructor; eauto.
Qed.
