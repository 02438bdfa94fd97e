(** What the lowering of bindings keeps: when it reports no name twice and no dynamic inherit, every value and every
    dynamic name that is written is in the set it builds. *)
From Verif Require Import Base Diag LexModel AstModel PSupModel SemaModel SemaProofs.

Inductive seen : node -> node -> Prop :=
| seen_plain n : attrs_sema n = None -> seen n n
| seen_static n sa x a w : attrs_sema n = Some sa -> In (x, a) (sa_static sa) -> seen (a_value a) w -> seen n w
| seen_key n sa a : attrs_sema n = Some sa -> In a (sa_dynamic sa) -> seen n (a_key a)
| seen_value n sa a w : attrs_sema n = Some sa -> In a (sa_dynamic sa) -> seen (a_value a) w -> seen n w.
Definition insa (sa : sema) (w : node) : Prop :=
  (exists x a, In (x, a) (sa_static sa) /\ seen (a_value a) w) \/
  (exists a, In a (sa_dynamic sa) /\ (w = a_key a \/ seen (a_value a) w)).
Lemma seen_set n sa w : attrs_sema n = Some sa -> (seen n w <-> insa sa w).
Proof.
  intros E. split.
  - intros H. inversion H as [n0 H0|n0 sa0 x a w0 H0 I S|n0 sa0 a H0 I|n0 sa0 a w0 H0 I S]; subst; rewrite E in H0; try discriminate H0; injection H0 as <-.
    + left. eauto.
    + right. exists a. auto.
    + right. exists a. auto.
  - intros [(x & a & I & S)|(a & I & [-> |S])]; [eapply seen_static|eapply seen_key|eapply seen_value]; eauto.
Qed.
Lemma with_sema_set n m a : attrs_sema n = Some a -> attrs_sema (with_sema n m) = Some m.
Proof. destruct n; try discriminate. intros _. destruct m. reflexivity. Qed.

(** ** counting reports *)
Definition bad (d : diag) : bool :=
  match d_kind d with DK_DuplicatedAttrName | DK_DynamicInherit => true | _ => false end.
Definition cnt (s : pst) : nat := List.length (filter bad (diags (plex s))).

Lemma pbind_ok {A B} (m : P A) (k : A -> P B) s r : pbind m k s = Ok r -> exists a s1, m s = Ok (a, s1) /\ k a s1 = Ok r.
Proof. unfold pbind. destruct (m s) as [[a s1]|w|]; try discriminate. eauto. Qed.
Ltac pb H a s1 H1 := apply pbind_ok in H as (a & s1 & H1 & H).
Lemma ret_ok {A} (a c : A) s s' : ret a s = Ok (c, s') -> c = a /\ s' = s.
Proof. unfold ret. intros [= -> ->]. auto. Qed.
Ltac rt H := apply ret_ok in H as [-> ->].
Lemma fresh_ok i s s' : fresh s = Ok (i, s') -> cnt s' = cnt s.
Proof. unfold fresh. intros [= _ <-]. reflexivity. Qed.
Lemma emit_bad d u s s' : emit d s = Ok (u, s') -> bad d = true -> cnt s' = S (cnt s).
Proof. unfold emit. intros [= _ <-] B. unfold cnt. cbn. rewrite B. reflexivity. Qed.
Lemma emit_good d u s s' : emit d s = Ok (u, s') -> bad d = false -> cnt s' = cnt s.
Proof. unfold emit. intros [= _ <-] B. unfold cnt. cbn. rewrite B. reflexivity. Qed.
Lemma dup_ok n r p u s s' : dupAttr n r p s = Ok (u, s') -> cnt s' = S (cnt s).
Proof. intros H. eapply emit_bad; [exact H|reflexivity]. Qed.
Lemma check_ok x y u s s' : checkAttrRecursiveForMerge x y s = Ok (u, s') -> cnt s' = cnt s.
Proof.
  unfold checkAttrRecursiveForMerge. destruct (Bool.eqb _ _); [intros H; now rt H|].
  destruct (if is_some (attrs_rec x) then attrs_rec x else attrs_rec y); [|discriminate]. intros H. eapply emit_good; [exact H|reflexivity].
Qed.

(** ** tables *)
Lemma sinsert_new k v m : In (k, v) (sinsert k v m).
Proof.
  induction m as [|[k' v'] m IH]; cbn [sinsert]; [now left|]. destruct (bytes_eqb k k'); [now left|]. destruct (bytes_ltb k k'); [now left|now right].
Qed.
Lemma sinsert_keep k v m p : In p m -> In p (sinsert k v m) \/ (fst p = k /\ sfind k m = Some (snd p)).
Proof.
  induction m as [|[k' v'] m IH]; cbn [sinsert sfind]; [intros []|]. destruct (bytes_eqb k k') eqn:E.
  - apply beq_eq in E. subst k'. intros [<-|I]; [right; auto|left; now right].
  - destruct (bytes_ltb k k'); [left; now right|]. intros [<-|I]; [left; now left|]. destruct (IH I) as [J|J]; [left; now right|now right].
Qed.

Lemma merge_keeps y : forall x s z s', mergeStatic x y s = Ok (z, s') ->
  cnt s <= cnt s' /\ (cnt s' = cnt s -> incl x z /\ incl y z).
Proof.
  induction y as [|[k v] y IH]; intros x s z s' H; cbn [mergeStatic] in H.
  - rt H. split; auto. intros _. split; [apply incl_refl|intros ? []].
  - destruct (sfind k x) as [xv|] eqn:F.
    + pb H u s1 D. apply dup_ok in D. apply IH in H as [H _]. split; [lia|]. intros E. lia.
    + apply IH in H as [H K]. split; auto. intros E. destruct (K E) as [K1 K2]. split.
      * intros p I. apply K1. destruct (sinsert_keep k v x p I) as [J|[_ J]]; auto. rewrite F in J. discriminate J.
      * intros p [<-|I]; [apply K1, sinsert_new|now apply K2].
Qed.
Lemma merge_sets x y s z s' : mergeAttrSets x y s = Ok (z, s') ->
  cnt s <= cnt s' /\ (cnt s' = cnt s -> forall w, insa x w \/ insa y w -> insa z w).
Proof.
  unfold mergeAttrSets. intros H. pb H st s1 M. rt H. apply merge_keeps in M as [M K]. split; auto. intros E w. destruct (K E) as [K1 K2].
  intros [[(k & a & I & S)|(a & I & S)]|[(k & a & I & S)|(a & I & S)]]; [left|right|left|right]; cbn [sa_static sa_dynamic].
  - exists k, a. auto.
  - exists a. split; auto. apply in_or_app. auto.
  - exists k, a. auto.
  - exists a. split; auto. apply in_or_app. auto.
Qed.

(** replacing or adding an entry of the static table *)
Lemma put_keeps k new st dy w : (forall old, sfind k st = Some old -> seen (a_value old) w -> seen (a_value new) w) ->
  insa (SA st dy) w -> insa (SA (sinsert k new st) dy) w.
Proof.
  intros F [(x & a & I & S)|D]; [left|right; exact D]. cbn [sa_static] in *.
  destruct (sinsert_keep k new st _ I) as [J|[J1 J2]]; [exists x, a; auto|]. exists k, new. split; [apply sinsert_new|eapply F; eauto].
Qed.
Lemma put_new k new st dy w : seen (a_value new) w -> insa (SA (sinsert k new st) dy) w.
Proof. intros S. left. exists k, new. split; [apply sinsert_new|exact S]. Qed.
Lemma dyn_keeps st dy a w : insa (SA st dy) w -> insa (SA st (dy ++ [a])) w.
Proof. intros [H|(c & I & S)]; [now left|right]. exists c. split; auto. cbn in *. apply in_or_app. auto. Qed.
Lemma dyn_new st dy a w : w = a_key a \/ seen (a_value a) w -> insa (SA st (dy ++ [a])) w.
Proof. intros S. right. exists a. split; auto. cbn. apply in_or_app. right. now left. Qed.

Definition kept (sa sa' : sema) (path : list node) (e : option node) : Prop :=
  (forall w, insa sa w -> insa sa' w) /\
  (forall v, e = Some v -> (forall w, seen v w -> insa sa' w) /\ forall n, In n path -> staticName n = None -> insa sa' n).

Lemma insert_keeps sa name e k s sa' s' : insertAttr sa name e k s = Ok (sa', s') ->
  cnt s <= cnt s' /\ (cnt s' = cnt s -> kept sa sa' [name] e).
Proof.
  destruct sa as [st dy]. unfold insertAttr. cbn [sa_static sa_dynamic]. destruct (staticName name) as [sn|] eqn:Sn.
  - destruct (sfind sn st) as [v|] eqn:F.
    + assert (Dup : forall s0, (do! dupAttr sn (nrange name) (nrange (a_key v)) in ret (SA st dy)) s0 = Ok (sa', s') -> cnt s' = S (cnt s0)).
      { intros s0 D. pb D u s1 D1. rt D. now apply dup_ok in D1. }
      destruct (attrs_sema (a_value v)) as [xs|] eqn:Xs; [|intros H; apply Dup in H; split; [lia|intros; lia]].
      destruct e as [en|]; [|intros H; apply Dup in H; split; [lia|intros; lia]].
      destruct (attrs_sema en) as [ys|] eqn:Ys; [|intros H; apply Dup in H; split; [lia|intros; lia]].
      intros H. pb H u s1 C. apply check_ok in C. pb H m s2 M. rt H. apply merge_sets in M as [M K]. split; [lia|]. intros E.
      assert (E1 : cnt s2 = cnt s1) by lia. specialize (K E1).
      assert (V : forall w, seen (with_sema (a_value v) m) w <-> insa m w) by (intros w; apply seen_set; eapply with_sema_set; eauto).
      split.
      * intros w. apply put_keeps. intros old Fo So. rewrite F in Fo. injection Fo as <-. apply V. apply K. left. apply (seen_set _ _ w Xs). exact So.
      * intros v0 [= <-]. split.
        -- intros w Sw. apply put_new. apply V, K. right. now apply (seen_set _ _ w Ys).
        -- intros n [<-|[]] N. congruence.
    + destruct e as [v|]; intros H; rt H; split; auto; intros _; split; try (intros v0 [= <-]); auto.
      * intros w. apply put_keeps. intros old Fo. rewrite F in Fo. discriminate Fo.
      * split; [intros w Sw; now apply put_new|]. intros n [<-|[]] N. congruence.
  - destruct e as [v|]; intros H; rt H; split; auto; intros _; split; auto.
    + intros w. apply dyn_keeps.
    + intros v0 [= <-]. split; [intros w Sw; apply dyn_new; now right|]. intros n [<-|[]] _. apply dyn_new. now left.
    + intros v0 Q. discriminate Q.
Qed.
Lemma nested_ok name inner s n s' : mkNested name inner s = Ok (n, s') -> cnt s' = cnt s /\ attrs_sema n = Some inner.
Proof. unfold mkNested. intros H. pb H i s1 F. rt H. apply fresh_ok in F. split; auto. destruct inner. reflexivity. Qed.

Lemma add_keeps path : forall sa e s sa' s', addAttr sa path e s = Ok (sa', s') ->
  cnt s <= cnt s' /\ (cnt s' = cnt s -> kept sa sa' path e).
Proof.
  induction path as [|name path IH]; intros sa e s sa' s' H; [discriminate H|].
  cbn [addAttr] in H. destruct path as [|n2 path]; [eapply insert_keeps; exact H|].
  set (rest := n2 :: path) in *. clearbody rest. destruct sa as [st dy]. cbn [sa_static sa_dynamic] in H.
  destruct (staticName name) as [sn|] eqn:Sn.
  - destruct (sfind sn st) as [v|] eqn:F.
    + assert (Dup : forall s0, (do! dupAttr sn (nrange name) (nrange (a_key v)) in ret (SA st dy)) s0 = Ok (sa', s') -> cnt s' = S (cnt s0)).
      { intros s0 D. pb D u s1 D1. rt D. now apply dup_ok in D1. }
      destruct (fromInherit v); [apply Dup in H; split; [lia|intros; lia]|].
      destruct (attrs_sema (a_value v)) as [inner|] eqn:Xs; [|apply Dup in H; split; [lia|intros; lia]].
      pb H inner' s1 A. rt H. apply IH in A as [A K]. split; auto. intros E. destruct (K E) as [K1 K2].
      assert (V : forall w, seen (with_sema (a_value v) inner') w <-> insa inner' w) by (intros w; apply seen_set; eapply with_sema_set; eauto).
      split.
      * intros w. apply put_keeps. intros old Fo So. rewrite F in Fo. injection Fo as <-. apply V, K1. now apply (seen_set _ _ w Xs).
      * intros v0 E0. destruct (K2 v0 E0) as [K3 K4]. split.
        -- intros w Sw. apply put_new. now apply V, K3.
        -- intros n [<-|I] N; [congruence|]. apply put_new. apply V. now apply K4.
    + pb H inner' s1 A. pb H n s2 M. rt H. apply nested_ok in M as [M V]. apply IH in A as [A K]. split; [lia|]. intros E.
      assert (E1 : cnt s1 = cnt s) by lia. destruct (K E1) as [K1 K2]. split.
      * intros w. apply put_keeps. intros old Fo. rewrite F in Fo. discriminate Fo.
      * intros v0 E0. destruct (K2 v0 E0) as [K3 K4]. split.
        -- intros w Sw. apply put_new. apply (seen_set _ _ w V). now apply K3.
        -- intros n0 [<-|I] N; [congruence|]. apply put_new. apply (seen_set _ _ n0 V). now apply K4.
  - pb H inner' s1 A. pb H n s2 M. rt H. apply nested_ok in M as [M V]. apply IH in A as [A K]. split; [lia|]. intros E.
    assert (E1 : cnt s1 = cnt s) by lia. destruct (K E1) as [K1 K2]. split.
    + intros w. apply dyn_keeps.
    + intros v0 E0. destruct (K2 v0 E0) as [K3 K4]. split.
      * intros w Sw. apply dyn_new. right. apply (seen_set _ _ w V). now apply K3.
      * intros n0 [<-|I] N; apply dyn_new; [now left|right]. apply (seen_set _ _ n0 V). now apply K4.
Qed.

(** ** inherit *)
Definition inherited (sa' : sema) (names : list node) (e : option node) : Prop :=
  (forall n, In n names -> staticName n <> None) /\
  forall ex, e = Some ex -> names <> [] -> exists i r d p o, insa sa' (NSelect i r ex d p o (Some (nid ex))).
Lemma name_keeps sa name v k s sa' s' : lowerInheritName sa name v k s = Ok (sa', s') ->
  cnt s <= cnt s' /\ (cnt s' = cnt s -> staticName name <> None /\ (forall w, insa sa w \/ seen v w -> insa sa' w)).
Proof.
  destruct sa as [st dy]. unfold lowerInheritName. cbn [sa_static sa_dynamic]. destruct (staticName name) as [sn|] eqn:Sn.
  - destruct (sfind sn st) as [prev|] eqn:F; intros H.
    + pb H u s1 D. rt H. apply dup_ok in D. split; [lia|intros; lia].
    + rt H. split; auto. intros _. split; [discriminate|]. intros w [I|I]; [|now apply put_new]. revert I. apply put_keeps. intros old Fo. rewrite F in Fo. discriminate Fo.
  - intros H. pb H f s1 D. pb H u s2 D2. rt H.
    assert (E1 : cnt s1 = cnt s).
    { unfold fix1 in D. pb D x s3 D3. rt D. unfold lift in D3. destruct (mkRemoval (nrange name)); try discriminate D3. injection D3 as _ <-. reflexivity. }
    apply emit_bad in D2; [|reflexivity]. split; [lia|intros; lia].
Qed.
Lemma desugar_ok name e s p s' : desugarInheritExpr name e s = Ok (p, s') -> cnt s' = cnt s /\
  (forall ex, e = Some ex -> exists i r d q o, fst p = NSelect i r ex d q o (Some (nid ex))).
Proof.
  unfold desugarInheritExpr. destruct e as [ex|]; intros H.
  - pb H p1 s1 F1. pb H i1 s2 F2. rt H. apply fresh_ok in F1. apply fresh_ok in F2. split; [lia|]. intros ex0 [= <-]. cbn. eauto 10.
  - split; [|intros ex Q; discriminate Q]. destruct name; try discriminate H. destruct name; try discriminate H. pb H v s1 F. rt H. now apply fresh_ok in F.
Qed.
Lemma inherit_keeps names : forall sa e s sa' s', lowerInherit sa names e s = Ok (sa', s') ->
  cnt s <= cnt s' /\ (cnt s' = cnt s -> (forall w, insa sa w -> insa sa' w) /\ inherited sa' names e).
Proof.
  induction names as [|n names IH]; intros sa e s sa' s' H; cbn [lowerInherit] in H.
  - rt H. split; auto. intros _. split; auto. split; [intros n []|]. intros ex _ N. now elim N.
  - pb H p s1 D. destruct p as [v k]. pb H sa1 s2 L. apply desugar_ok in D as [D1 D2]. apply name_keeps in L as [L1 L2]. apply IH in H as [H1 H2].
    split; [lia|]. intros E. assert (E1 : cnt s2 = cnt s1) by lia. assert (E2 : cnt s' = cnt s2) by lia.
    destruct (L2 E1) as [L3 L4]. destruct (H2 E2) as [H3 [H4 H5]]. split; [auto|]. split.
    + intros m [<-|I]; auto.
    + intros ex Ee _. destruct (D2 ex Ee) as (i & r & d & q & o & Ev). cbn [fst] in Ev. subst v. exists i, r, d, q, o. apply H3, L4. right. now constructor.
Qed.

Definition bound_in (sa : sema) (bn : node) : Prop :=
  match bn with
  | NBinding _ _ p (Some v) _ => (forall w, seen v w -> insa sa w) /\ forall n, In n (path_names p) -> staticName n = None -> insa sa n
  | NInherit _ _ names e => inherited sa names e
  | _ => True
  end.
Lemma bound_mono sa sa' bn : (forall w, insa sa w -> insa sa' w) -> bound_in sa bn -> bound_in sa' bn.
Proof.
  intros M. destruct bn; cbn [bound_in]; auto.
  - destruct value; auto. intros [A B]. split; auto.
  - intros [A B]. split; auto. intros ex E N. destruct (B ex E N) as (i & r' & d & p & o & I). exists i, r', d, p, o. auto.
Qed.
Lemma binds_keep bs : forall sa s sa' s', lowerBinds sa bs s = Ok (sa', s') ->
  cnt s <= cnt s' /\ (cnt s' = cnt s -> (forall w, insa sa w -> insa sa' w) /\ Forall (bound_in sa') bs).
Proof.
  induction bs as [|q bs IH]; intros sa s sa' s' H; cbn [lowerBinds] in H.
  - rt H. split; auto.
  - assert (St : exists sa1 s1, lowerBinds sa1 bs s1 = Ok (sa', s') /\ cnt s <= cnt s1 /\
      (cnt s1 = cnt s -> (forall w, insa sa w -> insa sa1 w) /\ bound_in sa1 q)).
    { destruct q; try discriminate H.
      - pb H sa1 s1 A. exists sa1, s1. split; [exact H|]. apply add_keeps in A as [A1 A2]. split; auto. intros E. destruct (A2 E) as [A3 A4]. split; auto.
        cbn [bound_in]. destruct value as [v|]; [|exact I]. apply A4. reflexivity.
      - pb H sa1 s1 A. exists sa1, s1. split; [exact H|]. apply inherit_keeps in A as [A1 A2]. split; auto. }
    destruct St as (sa1 & s1 & L & C1 & C2). apply IH in L as [L1 L2]. split; [lia|]. intros E. destruct C2 as [C2 C3]; [lia|]. destruct L2 as [L2 L3]; [lia|].
    split; auto. constructor; auto. eapply bound_mono; eauto.
Qed.
