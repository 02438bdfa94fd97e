(** The semantic actions: they do not move the parser, keep its invariant, and build sound nodes. *)
From Coq Require Import Permutation.
From Verif Require Import Base Diag LexModel LexSpec LexProofs AstModel PSupModel SemaModel ParseModel ParseSpec FixSpec
  ParseInv ParseTree.

Lemma stl_trans s1 s2 s3 : stl s1 s2 -> stl s2 s3 -> stl s1 s3.
Proof. intros [] []. constructor; try congruence; lia. Qed.

Section Sema.
Variable src : bytes.
Notation sok := (sok src). Notation nok := (nok src). Notation local := (local src).
Notation Inv := (Inv src). Notation wp := (wp src). Notation dok := (dok src).

Definition attr_ok (a : attribute) : Prop :=
  sok (a_key a) /\ sok (a_value a) /\ entry_typed a.
Definition sema_ok (sa : sema) : Prop :=
  Forall (fun kv => attr_ok (snd kv)) (sa_static sa) /\ Forall attr_ok (sa_dynamic sa).

Lemma sema_ok_empty : sema_ok sa_empty.
Proof. split; constructor. Qed.

Lemma sok_inv n : sok n -> local n /\ Forall sok (proper n) /\ Forall sok (extras n).
Proof. intros H. now destruct H. Qed.
Lemma sok_range n : sok n -> range_in src (nrange n).
Proof. intros H. apply (sok_local _ _ H). Qed.
Lemma sok_ne n : sok n -> kind_of n <> NK_InterpolableParts -> off (nl n) < off (nr n).
Proof. intros H. apply (sok_local _ _ H). Qed.

Lemma attrs_sema_ok n sa : sok n -> attrs_sema n = Some sa -> sema_ok sa.
Proof.
  intros H E. destruct n; try discriminate. injection E as <-.
  destruct (sok_inv _ H) as ((_ & _ & (_ & _ & T1 & T2) & _) & _ & X). cbn [extras] in X.
  apply Forall_app in X as [_ X]. apply Forall_app in X as [X1 X]. apply Forall_app in X as [X2 X].
  apply Forall_app in X as [X3 X4]. rewrite Forall_map in X1, X2, X3, X4.
  rewrite Forall_forall in *. split; apply Forall_forall; intros x Hx; simpl in *.
  - specialize (T1 x Hx). split; [now apply X1|]. split; [now apply X2|]. exact T1.
  - specialize (T2 x Hx). split; [now apply X3|]. split; [now apply X4|]. exact T2.
Qed.
Lemma sema_typed sa : sema_ok sa ->
  Forall (fun kv => entry_typed (snd kv)) (sa_static sa) /\ Forall entry_typed (sa_dynamic sa).
Proof.
  intros [H1 H2]. split; [eapply Forall_impl; [|exact H1]|eapply Forall_impl; [|exact H2]];
    cbv beta; unfold attr_ok; tauto.
Qed.
Lemma sema_extras sa : sema_ok sa ->
  Forall sok (map (fun kv => a_key (snd kv)) (sa_static sa) ++ map (fun kv => a_value (snd kv)) (sa_static sa) ++
      map a_key (sa_dynamic sa) ++ map a_value (sa_dynamic sa)).
Proof.
  intros [H1 H2]. rewrite !Forall_app, !Forall_map.
  repeat split; [eapply Forall_impl; [|exact H1]|eapply Forall_impl; [|exact H1]
                |eapply Forall_impl; [|exact H2]|eapply Forall_impl; [|exact H2]]; cbv beta; unfold attr_ok; tauto.
Qed.
Lemma with_sema_ok n sa : sok n -> sema_ok sa -> is_expr n ->
  sok (with_sema n sa) /\ is_expr (with_sema n sa) /\ nr (with_sema n sa) = nr n /\ kind_of (with_sema n sa) = kind_of n.
Proof.
  intros H S E. split; [|split; [destruct n; exact E|destruct n; split; reflexivity]]. destruct n; try exact H. cbn [with_sema].
  destruct (sok_inv _ H) as ((L1 & L2 & (T0 & T1 & _ & _) & L4) & P & X). cbn [extras] in X.
  apply Forall_app in X as [X _]. pose proof (sema_typed sa S) as [T2 T3].
  constructor.
  - split; [exact L1|]. split; [exact L2|]. split; [|exact L4]. cbn [typed]. auto.
  - exact P.
  - cbn [extras]. apply Forall_app. split; [exact X|]. apply (sema_extras sa S).
  - right. apply Forall_forall. intros c Ic. apply (sok_inside src _ c H); [discriminate|exact Ic].
Qed.

Lemma sfind_ok k m v : Forall (fun kv => attr_ok (snd kv)) m -> sfind k m = Some v -> attr_ok v.
Proof.
  induction 1 as [|[k' v'] m Hv _ IH]; simpl; [discriminate|].
  destruct (bytes_eqb k k'); [intros [= <-]; exact Hv|auto].
Qed.
Lemma sinsert_ok k v m : attr_ok v -> Forall (fun kv => attr_ok (snd kv)) m ->
  Forall (fun kv => attr_ok (snd kv)) (sinsert k v m).
Proof.
  intros Hv. induction 1 as [|[k' v'] m Hm HF IH]; simpl.
  - constructor; auto.
  - destruct (bytes_eqb k k'); [constructor; auto|]. destruct (bytes_ltb k k'); constructor; auto.
Qed.
Lemma sema_insert k v sa : attr_ok v -> sema_ok sa -> sema_ok (SA (sinsert k v (sa_static sa)) (sa_dynamic sa)).
Proof. intros H [H1 H2]. split; [now apply sinsert_ok|exact H2]. Qed.
Lemma sema_dyn v sa : attr_ok v -> sema_ok sa -> sema_ok (SA (sa_static sa) (sa_dynamic sa ++ [v])).
Proof. intros H [H1 H2]. split; [exact H1|]. apply Forall_app. auto. Qed.

Lemma wp_dupAttr name r prev (Q : unit -> pst -> Prop) s :
  Inv s -> range_in src r -> range_in src prev -> (forall s', Inv s' -> stl s s' -> Q tt s') ->
  wp (dupAttr name r prev) Q s.
Proof.
  intros I H1 H2 H. apply wp_emit; auto. apply dok_note; [exact H2|reflexivity|]. now apply dok_1.
Qed.

Lemma rec_sok n m : sok n -> attrs_rec n = Some m -> sok m.
Proof.
  intros H E. destruct n; try discriminate. simpl in E. subst.
  destruct (sok_inv _ H) as (_ & _ & X). cbn [extras optlist] in X. now inversion X.
Qed.

Lemma wp_checkRec x y (Q : unit -> pst -> Prop) s :
  Inv s -> sok x -> sok y -> (forall s', Inv s' -> stl s s' -> Q tt s') ->
  wp (checkAttrRecursiveForMerge x y) Q s.
Proof.
  intros I Hx Hy H. unfold checkAttrRecursiveForMerge.
  destruct (Bool.eqb _ _) eqn:E; [apply wp_ret; apply H; auto using stl_refl|].
  assert (R : forall n, sok n -> range_in src (match attrs_rec n with Some m => nrange m | None => nrange n end)).
  { intros n Hn. destruct (attrs_rec n) eqn:En; [|now apply sok_range]. now apply sok_range, (rec_sok n). }
  assert (Fin : forall p, sok p ->
    wp (emit
       (d_note (Note_ NK_RecConsider match attrs_rec y with Some m => nrange m | None => nrange y end
                  [non_ (is_some (attrs_rec y)); non_ (is_some (attrs_rec x))])
        (d_note (Note_ NK_ThisRecursive match attrs_rec x with Some m => nrange m | None => nrange x end
                   [non_ (is_some (attrs_rec x))])
           (diag0 DK_MergeDiffRec (nrange p))))) Q s).
  { intros p Hp. apply wp_emit; auto.
    apply dok_note; [now apply R|reflexivity|]. apply dok_note; [now apply R|reflexivity|].
    apply dok_0; [now apply sok_range|reflexivity]. }
  destruct (attrs_rec x) as [p|] eqn:Ex; cbn [is_some] in *.
  - apply Fin. now apply (rec_sok x).
  - destruct (attrs_rec y) as [p|] eqn:Ey; cbn [is_some] in *; [|discriminate].
    apply Fin. now apply (rec_sok y).
Qed.

Lemma wp_mergeStatic y x (Q : smap -> pst -> Prop) s :
  Inv s -> Forall (fun kv => attr_ok (snd kv)) x -> Forall (fun kv => attr_ok (snd kv)) y ->
  (forall m s', Inv s' -> stl s s' -> Forall (fun kv => attr_ok (snd kv)) m -> Q m s') ->
  wp (mergeStatic x y) Q s.
Proof.
  revert x s Q. induction y as [|[k v] y IH]; intros x s Q I Hx Hy H; cbn [mergeStatic].
  - apply wp_ret. apply H; auto using stl_refl.
  - inversion Hy as [|? ? Hv Hy']; subst. cbn [snd] in Hv. destruct (sfind k x) as [xv|] eqn:E.
    + apply wp_bind, wp_dupAttr; auto.
      * apply sok_range, Hv.
      * apply sok_range. apply (sfind_ok _ _ _ Hx E).
      * intros s' I' S'. apply IH; auto. intros m s2 I2 S2 Hm. apply H; auto. eapply stl_trans; eauto.
    + apply IH; auto. now apply sinsert_ok.
Qed.

Lemma wp_insertAttr sa name e k (Q : sema -> pst -> Prop) s :
  k <> AK_InheritFrom -> Inv s -> sema_ok sa -> sok name -> is_kind NK_AttrName name ->
  opt (fun n => sok n /\ is_expr n /\ off (nr name) <= off (nr n)) e ->
  (forall x s', Inv s' -> stl s s' -> sema_ok x -> Q x s') -> wp (insertAttr sa name e k) Q s.
Proof.
  intros Kk I Hs Hn Hk He H. unfold insertAttr.
  assert (Here : Q sa s) by (apply H; auto using stl_refl).
  destruct (staticName name) as [sn|].
  - destruct (sfind sn (sa_static sa)) as [v|] eqn:E.
    + pose proof (sfind_ok _ _ _ (proj1 Hs) E) as (V1 & V2 & V3 & V4 & V5 & V6).
      assert (Dup : wp (do! dupAttr sn (nrange name) (nrange (a_key v)) in ret sa) Q s).
      { apply wp_bind, wp_dupAttr; auto using sok_range. intros s' I' S'. apply wp_ret. apply H; auto. }
      destruct (attrs_sema (a_value v)) as [xs|] eqn:Ex; [|exact Dup].
      destruct e as [en|]; [|exact Dup]. destruct He as (He1 & He2 & He3).
      destruct (attrs_sema en) as [ys|] eqn:Ey; [|exact Dup].
      apply wp_bind, wp_checkRec; auto. intros s1 I1 S1. apply wp_bind. unfold mergeAttrSets. apply wp_bind.
      pose proof (attrs_sema_ok _ _ V2 Ex) as [X1 X2]. pose proof (attrs_sema_ok _ _ He1 Ey) as [Y1 Y2].
      apply wp_mergeStatic; auto. intros m s2 I2 S2 Hm. apply wp_ret, wp_ret.
      apply H; auto; [eapply stl_trans; eauto|]. apply sema_insert; auto.
      destruct (with_sema_ok (a_value v) (SA m (sa_dynamic xs ++ sa_dynamic ys))) as (W1 & W2 & W3 & W4); auto.
      { split; [exact Hm|]. apply Forall_app. auto. }
      split; [exact V1|]. split; [exact W1|]. split; [exact V3|]. split; [exact W2|]. unfold is_kind. cbn [a_kind a_key a_value fst snd].
      rewrite W3, W4. split; [exact V5|exact V6].
    + destruct e as [en|]; [|now apply wp_ret]. apply wp_ret. apply H; auto using stl_refl.
      apply sema_insert; auto. destruct He as (He1 & He2 & He3). exact (conj Hn (conj He1 (conj Hk (conj He2 (conj He3 (fun E0 => False_ind _ (Kk E0))))))).
  - destruct e as [en|]; [|now apply wp_ret]. apply wp_ret. apply H; auto using stl_refl.
    apply sema_dyn; auto. destruct He as (He1 & He2 & He3). exact (conj Hn (conj He1 (conj Hk (conj He2 (conj He3 (fun E0 => False_ind _ (Kk E0))))))).
Qed.

Lemma nested_ok i name sa : sok name -> is_kind NK_AttrName name -> sema_ok sa ->
  sok (NAttrs i (nrange name) None None (sa_static sa) (sa_dynamic sa)).
Proof.
  intros Hn Hk Hs. pose proof (sema_typed sa Hs) as [T2 T3]. constructor.
  - split; [exact (sok_range name Hn)|]. split.
    + intros _. apply (sok_ne name Hn). rewrite Hk. discriminate.
    + split; [|exact I]. cbn [typed opt]. auto.
  - constructor.
  - cbn [extras optlist app]. now apply sema_extras.
  - right. constructor.
Qed.

Lemma wp_addAttr path sa e (Q : sema -> pst -> Prop) s :
  Inv s -> sema_ok sa -> path <> [] -> Forall (fun n => sok n /\ is_kind NK_AttrName n) path ->
  opt (fun n => sok n /\ is_expr n /\ Forall (fun m => off (nr m) <= off (nr n)) path) e ->
  (forall x s', Inv s' -> stl s s' -> sema_ok x -> Q x s') -> wp (addAttr sa path e) Q s.
Proof.
  revert sa s Q. induction path as [|name path IH]; intros sa s Q I Hs Hne Hp He H; [congruence|].
  inversion Hp as [|? ? [Hn Hk] Hp']; subst. destruct path as [|name2 path].
  { cbn [addAttr]. apply wp_insertAttr; auto; [discriminate|]. destruct e as [en|]; [|exact Logic.I].
    destruct He as (He1 & He2 & He3). inversion He3; subst. exact (conj He1 (conj He2 H2)). }
  change (wp (match staticName name with
      | Some sn =>
          match sfind sn (sa_static sa) with
          | Some v =>
              match fromInherit v, attrs_sema (a_value v) with
              | false, Some inner =>
                  let! inner' := addAttr inner (name2 :: path) e in
                  ret (SA (sinsert sn (a_kind v, a_key v, with_sema (a_value v) inner') (sa_static sa))
                          (sa_dynamic sa))
              | _, _ => do! dupAttr sn (nrange name) (nrange (a_key v)) in ret sa
              end
          | None =>
              let! inner' := addAttr sa_empty (name2 :: path) e in
              let! n := mkNested name inner' in
              ret (SA (sinsert sn (AK_Plain, name, n) (sa_static sa)) (sa_dynamic sa))
          end
      | None =>
          let! inner' := addAttr sa_empty (name2 :: path) e in
          let! n := mkNested name inner' in
          ret (SA (sa_static sa) (sa_dynamic sa ++ [(AK_Plain, name, n)]))
      end) Q s).
  assert (IH' : forall sa s (Q : sema -> pst -> Prop), Inv s -> sema_ok sa ->
     (forall x s', Inv s' -> stl s s' -> sema_ok x -> Q x s') -> wp (addAttr sa (name2 :: path) e) Q s).
  { intros sa0 s0 Q0 I0 Hs0 HQ. apply IH; auto; [discriminate|].
    destruct e as [en|]; [|exact Logic.I]. destruct He as (He1 & He2 & He3). inversion He3; subst. exact (conj He1 (conj He2 H3)). }
  clear IH. destruct (staticName name) as [sn|].
  - destruct (sfind sn (sa_static sa)) as [v|] eqn:E.
    + pose proof (sfind_ok _ _ _ (proj1 Hs) E) as (V1 & V2 & V3 & V4 & V5 & V6).
      assert (Dup : wp (do! dupAttr sn (nrange name) (nrange (a_key v)) in ret sa) Q s).
      { apply wp_bind, wp_dupAttr; auto using sok_range. intros s' I' S'. apply wp_ret. apply H; auto. }
      destruct (fromInherit v); [exact Dup|].
      destruct (attrs_sema (a_value v)) as [xs|] eqn:Ex; [|exact Dup].
      apply wp_bind. apply IH'; auto; [apply (attrs_sema_ok _ _ V2 Ex)|].
      intros x s1 I1 S1 Hx. apply wp_ret. apply H; auto. apply sema_insert; auto.
      destruct (with_sema_ok (a_value v) x) as (W1 & W2 & W3 & W4); auto.
      split; [exact V1|]. split; [exact W1|]. split; [exact V3|]. split; [exact W2|]. unfold is_kind. cbn [a_kind a_key a_value fst snd].
      rewrite W3, W4. split; [exact V5|exact V6].
    + apply wp_bind. apply IH'; auto using sema_ok_empty. intros x s1 I1 S1 Hx.
      apply wp_bind. unfold mkNested. apply wp_bind, wp_fresh; auto. intros s2 I2 S2 N2. apply wp_ret, wp_ret.
      apply H; auto; [eapply stl_trans; eauto|]. apply sema_insert; auto.
      split; [exact Hn|]. split; [now apply nested_ok|]. split; [exact Hk|]. split; [reflexivity|]. cbn [a_kind a_key a_value fst snd]. split; [apply le_n|discriminate].
  - apply wp_bind. apply IH'; auto using sema_ok_empty. intros x s1 I1 S1 Hx.
    apply wp_bind. unfold mkNested. apply wp_bind, wp_fresh; auto. intros s2 I2 S2 N2. apply wp_ret, wp_ret.
    apply H; auto; [eapply stl_trans; eauto|]. apply sema_dyn; auto.
    split; [exact Hn|]. split; [now apply nested_ok|]. split; [exact Hk|]. split; [reflexivity|]. cbn [a_kind a_key a_value fst snd]. split; [apply le_n|discriminate].
Qed.

Lemma wp_desugar name e (Q : node * akind -> pst -> Prop) s :
  Inv s -> sok name -> is_kind NK_AttrName name -> opt (fun n => sok n /\ is_expr n) e ->
  occurs (b "inherit") src ->
  (forall v k s', Inv s' -> stl s s' -> sok v -> is_expr v -> nr v = nr name -> (k = AK_InheritFrom -> is_kind NK_ExprSelect v) -> Q (v, k) s') ->
  wp (desugarInheritExpr name e) Q s.
Proof.
  intros I Hn Hk He Ho H. unfold desugarInheritExpr.
  assert (Hr : off (nl name) < off (nr name)) by (apply (sok_ne name Hn); rewrite Hk; discriminate).
  destruct e as [ex|].
  - destruct He as [He1 He2]. apply wp_bind, wp_fresh; auto. intros s1 I1 S1 N1.
    apply wp_bind, wp_fresh; auto. intros s2 I2 S2 N2. apply wp_ret. apply H; auto.
    + eapply stl_trans; eauto.
    + constructor.
      * split; [exact (sok_range name Hn)|]. split; [intros _; exact Hr|]. split; [|exact Logic.I].
        cbn [typed opt]. repeat split; auto.
      * unfold proper. cbn [children]. rewrite !present_cons, present_nil. cbn [optlist app].
        constructor; [exact He1|]. constructor; [|constructor]. constructor.
        -- split; [exact (sok_range name Hn)|]. split; [intros _; exact Hr|]. split; [|exact Logic.I].
           cbn [typed]. split; [discriminate|]. split; [constructor; auto|constructor].
        -- unfold proper. cbn [children app map]. rewrite !present_cons, present_nil. cbn [optlist app].
           constructor; auto.
        -- constructor.
        -- right. constructor; [split; apply le_n|constructor].
      * constructor.
      * now left.
    + reflexivity.
    + reflexivity.
  - assert (C : wp (crash "AttrName::id: not an identifier") Q s).
    { right. right. split; [reflexivity|exact Ho]. }
    destruct name; try exact C. destruct name; try exact C.
    apply wp_bind, wp_fresh; auto. intros s1 I1 S1 N1. apply wp_ret. apply H; auto; [|reflexivity|discriminate].
    assert (Hin : forall c, In c (proper (NAttrName id r (NIdent id0 r0 name))) -> inside (nrange c) r).
    { intros c Ic. apply (sok_inside src _ c Hn); [discriminate|exact Ic]. }
    destruct (sok_inv _ Hn) as (L & P & _). unfold proper in P. cbn [children] in P. rewrite present_cons in P.
    constructor.
    + split; [now apply (sok_range _ Hn)|]. split; [intros _; exact Hr|]. split; [reflexivity|exact Logic.I].
    + unfold proper. cbn [children]. rewrite present_cons. exact P.
    + constructor.
    + right. apply Forall_forall. intros c Ic. apply Hin. exact Ic.
Qed.

Lemma wp_lowerInheritName sa name v k (Q : sema -> pst -> Prop) s :
  Inv s -> sema_ok sa -> sok name -> is_kind NK_AttrName name -> sok v -> is_expr v ->
  nr v = nr name -> (k = AK_InheritFrom -> is_kind NK_ExprSelect v) ->
  (forall x s', Inv s' -> stl s s' -> sema_ok x -> Q x s') -> wp (lowerInheritName sa name v k) Q s.
Proof.
  intros I Hs Hn Hk Hv Hve Hvr Hvk H. unfold lowerInheritName.
  assert (Hr : off (nl name) < off (nr name)) by (apply (sok_ne name Hn); rewrite Hk; discriminate).
  destruct (staticName name) as [sn|].
  - destruct (sfind sn (sa_static sa)) as [p|] eqn:E.
    + pose proof (sfind_ok _ _ _ (proj1 Hs) E) as (V1 & V2 & V3 & V4 & V5 & V6).
      apply wp_bind, wp_dupAttr; auto using sok_range. intros s' I' S'. apply wp_ret. apply H; auto.
    + apply wp_ret. apply H; auto using stl_refl. apply sema_insert; auto. refine (conj Hn (conj Hv (conj Hk (conj Hve _)))).
      cbn [a_kind a_key a_value fst snd]. rewrite Hvr. split; [apply le_n|exact Hvk].
  - apply wp_bind, wp_fix1_rem; [exact Hr|]. apply wp_bind, wp_emit; auto.
    { apply dok_tag, dok_fix; [apply fix_one, edit_rem; [now apply sok_range|exact Hr]|apply keeps_removal; [listed|repeat constructor|reflexivity]|].
      apply dok_0; [now apply sok_range|reflexivity]. }
    intros s' I' S' N'. apply wp_ret. apply H; auto.
Qed.

Lemma wp_lowerInherit names sa e (Q : sema -> pst -> Prop) s :
  Inv s -> sema_ok sa -> Forall (fun n => sok n /\ is_kind NK_AttrName n) names ->
  opt (fun n => sok n /\ is_expr n) e -> occurs (b "inherit") src ->
  (forall x s', Inv s' -> stl s s' -> sema_ok x -> Q x s') -> wp (lowerInherit sa names e) Q s.
Proof.
  intros I Hs Hn He Ho. revert sa s I Hs Q. induction Hn as [|n names [N1 N2] Hn IH]; intros sa s I Hs Q H.
  - apply wp_ret. apply H; auto using stl_refl.
  - cbn [lowerInherit]. apply wp_bind, wp_desugar; auto. intros v k s1 I1 S1 V1 V2 V3 V4.
    apply wp_bind, wp_lowerInheritName; auto. intros x s2 I2 S2 Hx. apply IH; auto.
    intros y s3 I3 S3 Hy. apply H; auto. eapply stl_trans; [|eauto]. eapply stl_trans; eauto.
Qed.

Lemma Forall_and2 (A B : node -> Prop) l : Forall A l -> Forall B l -> Forall (fun n => A n /\ B n) l.
Proof. rewrite !Forall_forall. auto. Qed.

Lemma path_names_ok p : sok p -> is_kind NK_AttrPath p ->
  path_names p <> [] /\ Forall (fun n => sok n /\ is_kind NK_AttrName n) (path_names p).
Proof.
  intros H K. destruct p; try discriminate. destruct (sok_inv _ H) as ((_ & _ & (T1 & T2 & _) & _) & P & _).
  split; [exact T1|]. unfold proper in P. cbn [children] in P. rewrite present_map in P.
  apply Forall_app in P as [P _]. now apply Forall_and2.
Qed.

Lemma path_names_in p : sok p -> is_kind NK_AttrPath p -> Forall (fun n => off (nr n) <= off (nr p)) (path_names p).
Proof.
  intros H K. destruct p; try discriminate. apply Forall_forall. intros n In0. cbn [path_names] in In0.
  assert (J : In n (proper (NAttrPath id r names dots))).
  { unfold proper. cbn [children]. rewrite present_map. apply in_app_iff. auto. }
  apply (sok_inside src _ n H) in J; [|discriminate]. apply J.
Qed.

Lemma wp_lowerBinds bs sa (Q : sema -> pst -> Prop) s :
  Inv s -> sema_ok sa -> Forall (fun n => sok n /\ is_bind n) bs ->
  (forall x s', Inv s' -> stl s s' -> sema_ok x -> Q x s') -> wp (lowerBinds sa bs) Q s.
Proof.
  intros I Hs Hb. revert sa s I Hs Q. induction Hb as [|n bs [N1 N2] Hb IH]; intros sa s I Hs Q H.
  - apply wp_ret. apply H; auto using stl_refl.
  - destruct n; try (now destruct N2).
    + cbn [lowerBinds]. destruct (sok_inv _ N1) as ((_ & _ & (T1 & T2 & _) & Tv) & P & _).
      unfold proper in P. cbn [children] in P. rewrite !present_cons, present_nil in P. cbn [optlist app] in P.
      inversion P as [|? ? P1 P2]; subst. apply Forall_app in P2 as [_ P2]. apply Forall_app in P2 as [P2 _].
      destruct (path_names_ok n P1 T1) as [A1 A2].
      apply wp_bind, wp_addAttr; auto.
      { destruct value as [v|]; [|exact Logic.I]. inversion P2 as [|? ? Sv _]; subst. cbn [opt] in *.
        split; [exact Sv|]. split; [exact T2|]. pose proof (sok_range _ Sv) as (_ & _ & Hv).
        eapply Forall_impl; [|exact (path_names_in n P1 T1)]. cbv beta. unfold nl, nr in *. intros; lia. }
      intros x s1 I1 S1 Hx. apply IH; auto. intros y s2 I2 S2 Hy. apply H; auto. eapply stl_trans; eauto.
    + cbn [lowerBinds]. destruct (sok_inv _ N1) as ((_ & _ & (T1 & T2) & Ho) & P & _).
      unfold proper in P. cbn [children] in P. rewrite present_app, present_map, present_cons, present_nil in P.
      apply Forall_app in P as [P1 P2]. rewrite app_nil_r in P2.
      apply wp_bind, wp_lowerInherit; auto.
      { now apply Forall_and2. }
      { destruct e as [v|]; [|exact Logic.I]. inversion P2; subst. now split. }
      intros x s1 I1 S1 Hx. apply IH; auto. intros y s2 I2 S2 Hy. apply H; auto. eapply stl_trans; eauto.
Qed.

Lemma binds_ok o : opt (fun n => sok n /\ is_kind NK_Binds n) o -> Forall (fun n => sok n /\ is_bind n) (binds_list o).
Proof.
  destruct o as [n|]; [|constructor]. intros [H K]. destruct n; try discriminate.
  destruct (sok_inv _ H) as ((_ & _ & (T1 & T2) & _) & P & _). unfold proper in P. cbn [children] in P.
  rewrite present_map in P. now apply Forall_and2.
Qed.

Lemma wp_onExprAttrs r binds rc (Q : node -> pst -> Prop) s :
  Inv s -> opt (fun n => sok n /\ is_kind NK_Binds n) binds -> opt (fun n => sok n /\ is_kind NK_Misc n) rc ->
  (forall i st dy s', Inv s' -> stl s s' -> pnid s <= i < pnid s' ->
     typed (NAttrs i r binds rc st dy) -> Forall sok (extras (NAttrs i r binds rc st dy)) ->
     Q (NAttrs i r binds rc st dy) s') ->
  wp (onExprAttrs r binds rc) Q s.
Proof.
  intros I Hb Hr H. apply wp_bind, wp_lowerBinds; auto using sema_ok_empty, binds_ok.
  intros x s1 I1 S1 Hx. apply wp_bind, wp_fresh; auto. intros s2 I2 S2 N2. apply wp_ret.
  pose proof (sema_typed x Hx) as [T2 T3]. apply H; auto.
  - eapply stl_trans; eauto.
  - destruct S1, S2. lia.
  - cbn [typed]. split; [destruct binds; [apply Hb|exact Logic.I]|].
    split; [destruct rc; [apply Hr|exact Logic.I]|]. auto.
  - cbn [extras]. apply Forall_app. split; [destruct rc; [constructor; [apply Hr|constructor]|constructor]|].
    now apply sema_extras.
Qed.

(** * Formals *)
Definition formal (n : node) : Prop := sok n /\ is_kind NK_Formal n.
Lemma formal_ne n : formal n -> off (nl n) < off (nr n).
Proof. intros [H K]. apply sok_ne; auto. rewrite K. discriminate. Qed.
Lemma formal_comma n c : formal n -> f_comma n = Some c ->
  range_in src (nrange c) /\ inside (nrange c) (nrange n) /\ off (nl c) < off (nr c).
Proof.
  intros [H K] E. destruct n; try discriminate. simpl in E. subst comma.
  destruct (sok_inv _ H) as ((_ & _ & ((T1 & T2) & _) & _) & _ & X). cbn [extras optlist] in X. inversion X; subst.
  split; [now apply sok_range|]. split; [exact T2|]. apply sok_ne; auto. rewrite T1. discriminate.
Qed.
Lemma formal_id n i : formal n -> f_id n = Some i -> range_in src (nrange i).
Proof.
  intros [H K] E. destruct n; try discriminate. simpl in E. subst ident.
  destruct (sok_inv _ H) as ((_ & _ & (_ & _ & _ & _ & T) & _) & P & _). unfold proper in P. cbn [children] in P.
  destruct ell as [e|]; [destruct T as [? _]; [discriminate|discriminate]|].
  rewrite present_cons in P. cbn [optlist app] in P. inversion P; subst. now apply sok_range.
Qed.

Lemma wp_checkFormalSep first fv (Q : unit -> pst -> Prop) s :
  Inv s -> Forall formal fv -> (forall s', Inv s' -> stl s s' -> Q tt s') -> wp (checkFormalSep first fv) Q s.
Proof.
  intros I HF. revert first s I Q. induction HF as [|f fv Hf HF IH]; intros first s I Q H.
  - apply wp_ret. apply H; auto using stl_refl.
  - cbn [checkFormalSep]. apply wp_bind.
    assert (K : forall s', Inv s' -> stl s s' -> wp (checkFormalSep false fv) Q s').
    { intros s' I' S'. apply IH; auto. intros s2 I2 S2. apply H; auto. eapply stl_trans; eauto. }
    destruct (negb first && _); [|apply wp_ret; apply K; auto using stl_refl].
    apply wp_bind, wp_fix1_ins; [discriminate|]. pose proof (sok_range f (proj1 Hf)) as R.
    apply wp_emit; auto.
    apply dok_fix; [apply fix_one, edit_ins; [apply R|discriminate]|apply (keeps_insert_ src); reflexivity|]. now apply dok_0.
Qed.

Lemma wp_removeFormal first f after (Q : list tedit -> pst -> Prop) s :
  formal f -> Forall formal after -> Forall (fun g => apart (nrange f) (nrange g)) after ->
  (forall es, Forall (edit_clean src) es -> ForallOrdPairs (fun e1 e2 => apart (e_range e1) (e_range e2)) es ->
     Forall (fun e => e_range e = nrange f \/ exists g, In g after /\ inside (e_range e) (nrange g)) es ->
     (exists es', es = TEdit (nrange f) [] :: es' /\ Forall cuts es /\ List.length es' <= 1) -> Q es s) ->
  wp (removeFormal first f after) Q s.
Proof.
  intros Hf Ha Hap H. unfold removeFormal. apply wp_bind. pose proof (formal_ne f Hf) as Hne.
  rewrite (mkRemoval_ok _ Hne). apply wp_lift.
  assert (E : edit_clean src (TEdit (nrange f) [])) by (apply edit_rem; [apply sok_range, Hf|exact Hne]).
  assert (One : wp (ret [TEdit (nrange f) []]) Q s).
  { apply wp_ret. apply H.
    - constructor; auto.
    - constructor; constructor.
    - constructor; [now left|constructor].
    - eexists. split; [reflexivity|split; [repeat constructor|cbn; lia]]. }
  destruct first; [|exact One]. destruct after as [|f2 after]; [exact One|].
  destruct (f_comma f2) as [c|] eqn:Ec; [|exact One].
  inversion Ha as [|? ? Hf2 _]; subst. inversion Hap as [|? ? Hap2 _]; subst.
  destruct (formal_comma f2 c Hf2 Ec) as (C1 & C2 & C3).
  apply wp_bind. rewrite (mkRemoval_ok _ C3). apply wp_lift, wp_ret. apply H.
  - constructor; [exact E|]. constructor; [now apply edit_rem|constructor].
  - constructor; [|constructor; constructor]. constructor; [|constructor]. cbn [e_range].
    unfold apart, inside in *. lia.
  - constructor; [now left|]. constructor; [|constructor]. right. exists f2. split; [now left|exact C2].
  - eexists. split; [reflexivity|split; [repeat constructor|cbn; lia]].
Qed.

Lemma wp_ellipsis first lastF fv (Q : unit -> pst -> Prop) s :
  Inv s -> Forall formal fv -> ForallOrdPairs (fun c d => apart (nrange c) (nrange d)) fv ->
  (fv = [] \/ exists pre, fv = pre ++ [lastF]) ->
  (forall s', Inv s' -> stl s s' -> Q tt s') -> wp (checkFormalEllipsis_f src first lastF fv) Q s.
Proof.
  intros I HF. revert first s I Q. induction HF as [|f fv Hf HF IH]; intros first s I Q HP HL H.
  - apply wp_ret. apply H; auto using stl_refl.
  - destruct fv as [|f2 fv]; [apply wp_ret; apply H; auto using stl_refl|].
    inversion HP as [|? ? Hap HP']; subst.
    assert (HL' : exists pre, f2 :: fv = pre ++ [lastF]).
    { destruct HL as [?|[pre E]]; [discriminate|]. destruct pre as [|x pre]; [discriminate|].
      injection E as _ E. now exists pre. }
    assert (K : forall s', Inv s' -> stl s s' -> wp (checkFormalEllipsis_f src false lastF (f2 :: fv)) Q s').
    { intros s' I' S'. apply IH; auto. intros s2 I2 S2. apply H; auto. eapply stl_trans; eauto. }
    change (wp (do! (if is_some (f_ell f) then
             if is_some (f_ell lastF) then
               let! es := removeFormal first f (f2 :: fv) in
               emit (d_fix (Fix_ (b "remove `...`") es) (diag0 DK_FormalExtraEllipsis (nrange f)))
             else
               let! es := removeFormal first f (f2 :: fv) in
               let! text := lift (nsrc src f) in
               let text' := if is_some (f_comma f) then text else b ", " ++ text in
               let! e := lift (mkInsertion (nr lastF) text') in
               emit (d_fix (Fix_ (b "move ellipsis to the tail") (es ++ [e]))
                           (diag0 DK_FormalMisplacedEllipsis (nrange f)))
           else ret tt) in
      checkFormalEllipsis_f src false lastF (f2 :: fv)) Q s).
    apply wp_bind. pose proof (sok_range f (proj1 Hf)) as R.
    destruct (is_some (f_ell f)); [|apply wp_ret; apply K; auto using stl_refl].
    destruct (is_some (f_ell lastF)).
    + apply wp_bind. apply wp_removeFormal; auto. intros es E1 E2 _ (es' & Es & Cut & Len).
      apply wp_emit; auto. apply dok_fix; [now split|subst es; apply keeps_longer; [listed|exact Cut|reflexivity|lia]|]. now apply dok_0.
    + apply wp_bind. apply wp_removeFormal; auto. intros es E1 E2 E3 (es' & Es & Cut & Len).
      pose proof (formal_ne f Hf) as Hne. destruct R as (R1 & R2 & R3).
      pose proof (cursor_in_len src _ R2) as Hlen. fold (nr f) in Hlen. fold (nl f) in R1.
      assert (Hin : In lastF (f2 :: fv)).
      { destruct HL' as [pre ->]. apply in_or_app. right. now left. }
      assert (HlF : formal lastF) by (rewrite Forall_forall in HF; now apply HF).
      pose proof (sok_range lastF (proj1 HlF)) as RL.
      apply wp_bind. unfold nsrc.
      rewrite (proj2 (Nat.ltb_ge _ _)) by lia. rewrite (proj2 (Nat.ltb_ge (off (nr f)) (off (nl f)))) by lia.
      apply wp_lift. set (text := firstn _ _).
      assert (Ht : text <> []).
      { intros Ht. apply (f_equal (@List.length _)) in Ht. unfold text in Ht.
        rewrite firstn_length, skipn_length in Ht. simpl in Ht. lia. }
      assert (Ht' : (if is_some (f_comma f) then text else b ", " ++ text) <> []).
      { destruct (is_some (f_comma f)); [exact Ht|discriminate]. }
      apply wp_bind. rewrite (mkInsertion_ok _ _ Ht'). apply wp_lift. apply wp_emit; auto.
      apply dok_fix; [| |apply dok_0; [now repeat split|reflexivity]]. 2:{ cbn [f_msg f_edits]. rewrite Es. apply keeps_move; [reflexivity|now rewrite <- Es| |exact Len]. change (text_of src (d_range (diag0 DK_FormalMisplacedEllipsis (nrange f)))) with text.
          destruct (is_some (f_comma f)); [left|right]; apply ins_inserts. }
      split; cbn [f_edits].
      * apply Forall_app. split; [exact E1|]. constructor; [|constructor]. apply edit_ins; [apply RL|exact Ht'].
      * apply FOP_app; auto; [constructor; constructor|].
        intros x y Hx [<-|[]]. cbn [e_range]. rewrite Forall_forall in E3.
        pose proof (sok_range lastF (proj1 HlF)) as (_ & _ & RL3).
        destruct (E3 x Hx) as [->|(g & Hg & Hi)].
        -- rewrite Forall_forall in Hap. specialize (Hap lastF Hin). unfold apart, nr, nl in *. simpl. lia.
        -- assert (Hgl : g = lastF \/ apart (nrange g) (nrange lastF)).
           { destruct HL' as [pre E]. rewrite E in Hg, HP'. apply in_app_or in Hg as [Hg|[Hg|[]]]; [|now left].
             right. clear - Hg HP'. induction pre as [|z pre IHp]; [destruct Hg|].
             cbn [app] in HP'. inversion HP' as [|? ? F1 F2]; subst. destruct Hg as [->|Hg]; [|auto].
             rewrite Forall_forall in F1. apply F1. apply in_or_app. right. now left. }
           rewrite Forall_forall in HF. pose proof (sok_range g (proj1 (HF g Hg))) as (_ & _ & Rg).
           unfold apart, inside, nr, nl in *. simpl. destruct Hgl as [->|Hgl]; lia.
Qed.

Lemma last_snoc (f : node) fv : exists pre, f :: fv = pre ++ [last (f :: fv) f].
Proof.
  destruct (exists_last (l := f :: fv)) as [pre [x E]]; [discriminate|]. exists pre. rewrite E at 1. f_equal.
  f_equal. rewrite E. now rewrite last_last.
Qed.

Lemma wp_checkFormalEmpty fv (Q : unit -> pst -> Prop) s :
  Inv s -> Forall formal fv -> (forall s', Inv s' -> stl s s' -> Q tt s') -> wp (checkFormalEmpty fv) Q s.
Proof.
  intros I HF. revert s I Q. induction HF as [|f fv Hf HF IH]; intros s I Q H.
  - apply wp_ret. apply H; auto using stl_refl.
  - destruct fv as [|f2 fv]; [apply wp_ret; apply H; auto using stl_refl|].
    change (wp (do! (if is_some (f_comma f) && negb (is_some (f_id f)) && negb (is_some (f_ell f)) then
             let! x := fix1 (b "remove empty formal") (mkRemoval (nrange f)) in
             emit (d_tag Faded (d_fix x (diag0 DK_EmptyFormal (nrange f))))
           else ret tt) in
      checkFormalEmpty (f2 :: fv)) Q s).
    apply wp_bind.
    assert (K : forall s', Inv s' -> stl s s' -> wp (checkFormalEmpty (f2 :: fv)) Q s').
    { intros s' I' S'. apply IH; auto. intros s2 I2 S2. apply H; auto. eapply stl_trans; eauto. }
    destruct (is_some (f_comma f) && _ && _); [|apply wp_ret; apply K; auto using stl_refl].
    pose proof (formal_ne f Hf) as Hne. pose proof (sok_range f (proj1 Hf)) as R.
    apply wp_bind, wp_fix1_rem; [exact Hne|]. apply wp_emit; auto.
    apply dok_tag, dok_fix; [apply fix_one, edit_rem; auto|apply keeps_removal; [listed|repeat constructor|reflexivity]|]. now apply dok_0.
Qed.

Lemma wp_dedupFormal d fv (Q : list (bytes * node) -> pst -> Prop) s :
  Inv s -> Forall (fun kv => formal (snd kv) /\ f_id (snd kv) <> None) d -> Forall formal fv ->
  (forall d' s', Inv s' -> stl s s' -> Q d' s') -> wp (dedupFormal d fv) Q s.
Proof.
  intros I Hd HF. revert d s I Hd Q. induction HF as [|f fv Hf HF IH]; intros d s I Hd Q H.
  - apply wp_ret. apply H; auto using stl_refl.
  - cbn [dedupFormal]. destruct (f_id f) as [i|] eqn:Ei; [|now apply IH].
    destruct (dfind (ident_name i) d) as [dup|] eqn:Ed.
    + assert (X : formal dup /\ f_id dup <> None).
      { clear - Hd Ed. induction Hd as [|[k v] d Hv Hd IHd]; simpl in Ed; [discriminate|].
        destruct (bytes_eqb _ k); [injection Ed as <-; exact Hv|auto]. }
      destruct X as [X1 X2]. destruct (f_id dup) as [di|] eqn:Edi; [|congruence].
      apply wp_bind, wp_emit; auto.
      { apply dok_note; [apply (formal_id _ _ X1 Edi)|reflexivity|].
        apply dok_0; [apply (formal_id _ _ Hf Ei)|reflexivity]. }
      intros s' I' S' N'. apply IH; auto. intros d' s2 I2 S2. apply H; auto. eapply stl_trans; eauto.
    + apply IH; auto. clear - Hd Hf Ei. induction Hd as [|[k v] d Hv Hd IHd]; simpl.
      * constructor; [|constructor]. simpl. split; [exact Hf|congruence].
      * destruct (bytes_eqb _ k); [constructor; auto; split; [exact Hf|simpl; congruence]|].
        destruct (bytes_ltb _ k); constructor; auto. split; [exact Hf|simpl; congruence].
Qed.

Lemma wp_onFormals r fv (Q : node -> pst -> Prop) s :
  Inv s -> Forall formal fv -> ForallOrdPairs (fun c d => apart (nrange c) (nrange d)) fv ->
  (forall i d s', Inv s' -> stl s s' -> pnid s <= i < pnid s' -> Q (NFormals i r fv d) s') ->
  wp (onFormals src r fv) Q s.
Proof.
  intros I HF HP H. apply wp_bind, wp_checkFormalSep; auto. intros s1 I1 S1.
  assert (K : forall s2, Inv s2 -> stl s s2 -> wp (do! checkFormalEmpty fv in
      let! d := dedupFormal [] fv in
      let! i := fresh in ret (NFormals i r fv (map (fun kv => (fst kv, nid (snd kv))) d))) Q s2).
  { intros s2 I2 S2. apply wp_bind, wp_checkFormalEmpty; auto. intros s3 I3 S3.
    apply wp_bind, wp_dedupFormal; auto. intros d s4 I4 S4. apply wp_bind, wp_fresh; auto.
    intros s5 I5 S5 N5. apply wp_ret. apply H; auto; [|destruct S2, S3, S4; lia].
    eapply stl_trans; [|eauto]. eapply stl_trans; [|eauto]. eapply stl_trans; eauto. }
  apply wp_bind. unfold checkFormalEllipsis. destruct fv as [|f fv]; [apply wp_ret; apply K; auto|].
  apply wp_ellipsis; auto.
  - right. apply last_snoc.
  - intros s2 I2 S2. apply K; auto. eapply stl_trans; eauto.
Qed.

Lemma wp_onLambdaArg r ident formals (Q : node -> pst -> Prop) s :
  Inv s -> opt (fun n => range_in src (nrange n)) ident -> opt (fun n => sok n /\ is_kind NK_Formals n) formals ->
  (forall i s', Inv s' -> stl s s' -> pnid s <= i < pnid s' -> Q (NLambdaArg i r ident formals) s') ->
  wp (onLambdaArg r ident formals) Q s.
Proof.
  intros I Hi Hf H. apply wp_bind.
  assert (K : forall s1, Inv s1 -> stl s s1 -> wp (let! i := fresh in ret (NLambdaArg i r ident formals)) Q s1).
  { intros s1 I1 S1. apply wp_bind, wp_fresh; auto. intros s2 I2 S2 N2. apply wp_ret. apply H; auto.
    - eapply stl_trans; eauto.
    - destruct S1; lia. }
  destruct ident as [i|]; [|apply wp_ret; apply K; auto using stl_refl].
  destruct formals as [f|]; [|apply wp_ret; apply K; auto using stl_refl].
  destruct (dedup_at f (ident_name i)) as [dup|] eqn:E; [|apply wp_ret; apply K; auto using stl_refl].
  apply wp_emit; auto. apply dok_note; [|reflexivity|apply dok_0; [exact Hi|reflexivity]]. cbn [n_range].
  destruct Hf as [Hf Hk]. destruct f; try discriminate. simpl in E.
  destruct (dfind _ dedup) as [j|]; [|discriminate]. apply find_some in E as [E _].
  destruct (sok_inv _ Hf) as (_ & P & _). unfold proper in P. cbn [children] in P. rewrite present_map, Forall_forall in P.
  apply sok_range. now apply P.
Qed.
End Sema.
