(** Attribute paths (C42): the lemmas. *)
From Verif Require Import Base Diag LexModel LexSpec LexProofs AstModel PSupModel SemaModel ParseModel ParseSpec ParseInv ParseTree ParseProofs
  NavModel NavSpec NavProofs VlaModel CompModel CompSpec.

(** *** The nodes of a parsed tree: types and single parents *)
Lemma proper_children n c : In c (proper n) -> In c (present (children n)).
Proof.
  destruct n; cbn [proper]; auto; intro H; apply present_in; cbn [children];
    match type of H with In _ (optlist ?o) => destruct o; [|destruct H] end; destruct H as [<-|[]]; simpl; auto.
Qed.
Lemma children_proper n c : typed n -> In c (present (children n)) -> In c (proper n) \/ (kind_of c = NK_Misc /\ In c (extras n)).
Proof.
  destruct n; cbn [proper]; auto; intros T H; apply present_in in H; cbn [children] in H; cbn [typed] in T.
  - destruct H as [H|[H|[]]]; subst; cbn [optlist extras]; [left; now left|]. right. destruct T as (_ & T & _). split; [exact T|]. now left.
  - destruct H as [H|[H|[]]]; [inversion H; subst|subst]; cbn [optlist extras]; [|left; now left]. right. destruct T as [T _]. split; [exact T|now left].
Qed.
Lemma node_sok src root n : sok src root -> node_of root n -> sok src n.
Proof.
  intros S N. induction N as [|r c n I N IH]; [exact S|]. apply IH. destruct S as [r L P E _].
  rewrite Forall_forall in P, E. destruct L as (_ & _ & T & _). destruct (children_proper _ _ T I) as [H|[_ H]]; auto.
Qed.
Lemma sok_typed src n : sok src n -> typed n.
Proof. intros [m (_ & _ & T & _) _ _ _]. exact T. Qed.

Lemma misc_leaf n c : kind_of n = NK_Misc -> ~ In c (present (children n)).
Proof. destruct n; try discriminate. intros _ []. Qed.
Lemma node_in_nodes src root n : sok src root -> node_of root n -> In n (nodes root) \/ kind_of n = NK_Misc.
Proof.
  intros S N. induction N as [n|r c n I N IH]; [left; rewrite nodes_eq; now left|].
  pose proof (node_sok src r c S (node_child r c c I (node_self c))) as Sc.
  destruct (children_proper _ _ (sok_typed _ _ S) I) as [H|[H _]].
  - destruct (IH Sc) as [K|K]; [left|now right]. rewrite nodes_eq. right. apply in_flat_map. eauto.
  - right. inversion N; subst; [exact H|]. exfalso. eapply misc_leaf; eauto.
Qed.

Lemma ids_in n c : In c (nodes n) -> In (nid c) (ids n).
Proof. intro H. now apply in_map. Qed.
Lemma proper_nodes p c : In c (proper p) -> In c (flat_map nodes (proper p)).
Proof. intro H. apply in_flat_map. exists c. split; [exact H|]. rewrite nodes_eq. now left. Qed.
Lemma nodes_trans n p c : In p (nodes n) -> In c (proper p) -> In c (flat_map nodes (proper n)).
Proof.
  assert (G : forall k n p c, nsize n <= k -> In p (nodes n) -> In c (proper p) -> In c (flat_map nodes (proper n))).
  { clear. induction k as [|k IH]; intros n p c L H I; [pose proof (nsize_pos n); lia|].
    rewrite nodes_eq in H. destruct H as [<-|H]; [now apply proper_nodes|]. apply in_flat_map in H. destruct H as (d & Hd & H).
    apply in_flat_map. exists d. split; [exact Hd|]. rewrite nodes_eq. right. apply (IH d p c); auto.
    pose proof (child_size n d (proj1 (present_in _ _) (proper_children _ _ Hd))). lia. }
  apply (G (nsize n)). lia.
Qed.

Lemma NoDup_flat {A B} (f : A -> list B) l x y k : NoDup (flat_map f l) -> In x l -> In y l -> In k (f x) -> In k (f y) -> x = y.
Proof.
  induction l as [|z l IH]; [intros _ []|]. cbn [flat_map]. intros N Hx Hy Kx Ky.
  assert (D : forall k, In k (f z) -> ~ In k (flat_map f l)).
  { clear - N. induction (f z) as [|a t IHt]; [intros k []|]. inversion N; subst. intros k [<-|H].
    - intro H. apply H1. apply in_or_app. now right.
    - now apply IHt. }
  assert (N2 : NoDup (flat_map f l)).
  { clear - N. induction (f z) as [|a t IHt]; [exact N|]. inversion N; auto. }
  destruct Hx as [<-|Hx], Hy as [<-|Hy]; auto.
  - exfalso. apply (D k Kx). apply in_flat_map. eauto.
  - exfalso. apply (D k Ky). apply in_flat_map. eauto.
Qed.
Lemma NoDup_flat_one {A B} (f : A -> list B) l x : NoDup (flat_map f l) -> In x l -> NoDup (f x).
Proof.
  induction l as [|z l IH]; [intros _ []|]. cbn [flat_map]. intros N [<-|H].
  - clear - N. induction (f z) as [|a t IHt]; [constructor|]. inversion N; subst. constructor; auto. intro H. apply H1. apply in_or_app. now left.
  - apply IH; auto. clear - N. induction (f z) as [|a t IHt]; [exact N|]. inversion N; auto.
Qed.

Lemma single_parent r : NoDup (ids r) -> forall n p q, In p (nodes r) -> In q (nodes r) -> In n (proper p) -> In n (proper q) -> p = q.
Proof.
  assert (G : forall k r, nsize r <= k -> NoDup (ids r) -> forall n p q, In p (nodes r) -> In q (nodes r) -> In n (proper p) -> In n (proper q) -> p = q).
  { clear. induction k as [|k IH]; intros r L N n p q Hp Hq Ip Iq; [pose proof (nsize_pos r); lia|].
    rewrite ids_eq in N. inversion N as [|? ? Nr Nl]; subst. unfold lids in *.
    assert (X : forall p q, p = r -> In q (flat_map nodes (proper r)) -> In n (proper p) -> In n (proper q) -> False).
    { clear p q Hp Hq Ip Iq. intros p q -> Hq Ip Iq. apply in_flat_map in Hq. destruct Hq as (d & Hd & Hq).
      pose proof (nodes_trans _ _ _ Hq Iq) as Hn.
      assert (n = d).
      { eapply (NoDup_flat ids); eauto; [rewrite ids_eq; now left|]. rewrite ids_eq. right. unfold lids.
        apply in_flat_map in Hn. destruct Hn as (e & He & Hn). apply in_flat_map. exists e. split; [exact He|now apply ids_in]. }
      subst d. pose proof (NoDup_flat_one ids _ _ Nl Hd) as Nd. rewrite ids_eq in Nd. inversion Nd as [|? ? Bad _]; subst. apply Bad.
      apply in_flat_map in Hn. destruct Hn as (e & He & Hn). apply in_flat_map. exists e. split; [exact He|now apply ids_in]. }
    rewrite nodes_eq in Hp, Hq. destruct Hp as [<-|Hp], Hq as [<-|Hq]; auto.
    - exfalso. eapply X; eauto.
    - exfalso. eapply X; eauto.
    - apply in_flat_map in Hp, Hq. destruct Hp as (d & Hd & Hp), Hq as (e & He & Hq).
      pose proof (nodes_trans _ _ _ Hp Ip) as P1. pose proof (nodes_trans _ _ _ Hq Iq) as P2.
      assert (d = e).
      { eapply (NoDup_flat ids _ d e (nid n)); eauto; apply ids_in; rewrite nodes_eq; now right. }
      subst e. apply (IH d) with (n := n); auto.
      + pose proof (child_size r d (proj1 (present_in _ _) (proper_children _ _ Hd))). lia.
      + eapply NoDup_flat_one; eauto. }
  intros N. apply (G (nsize r)); auto.
Qed.

(** which nodes are children of which *)
Lemma kinds p c : typed p -> In c (present (children p)) ->
  match kind_of c with
  | NK_Interpolation => kind_of p = NK_InterpolableParts \/ kind_of p = NK_AttrName
  | NK_InterpolableParts => kind_of p = NK_ExprString \/ kind_of p = NK_ExprPath
  | NK_AttrName => kind_of p = NK_AttrPath \/ kind_of p = NK_Inherit
  | NK_Binding | NK_Inherit => kind_of p = NK_Binds
  | NK_Binds => kind_of p = NK_ExprAttrs
  | NK_Formal => kind_of p = NK_Formals
  | NK_Formals => kind_of p = NK_LambdaArg
  | NK_LambdaArg => kind_of p = NK_ExprLambda
  | NK_Dot => kind_of p = NK_AttrPath
  | k => kind_of p = NK_ExprAttrs -> k = NK_Misc
  end /\ (kind_of c = NK_ExprAttrs ->
    isExpr (kind_of p) = true \/ kind_of p = NK_Interpolation \/ kind_of p = NK_Binding \/ kind_of p = NK_Inherit \/ kind_of p = NK_Formal).
Proof.
  intros T H. apply present_in in H.
  assert (FA : forall (Q : node -> Prop) l, Forall Q l -> In (Some c) (map Some l) -> Q c).
  { intros Q l F I. rewrite Forall_forall in F. apply F. apply in_map_iff in I. destruct I as (x & E & I). now inversion E; subst. }
  destruct p; cbn [children typed] in *; try (destruct H; fail); unfold is_kind, is_bind, is_name, is_expr, opt in *;
    repeat match goal with
    | H : _ /\ _ |- _ => destruct H
    | H : In _ (_ :: _) |- _ => destruct H as [H|H]
    | H : In _ [] |- _ => destruct H
    | H : Some _ = Some _ |- _ => inversion H; subst; clear H
    | H : ?x = Some _ |- _ => subst x
    | H : In _ (map Some (_ ++ _)) |- _ => rewrite map_app in H
    | H : In _ (_ ++ _) |- _ => apply in_app_or in H; destruct H as [H|H]
    | F : Forall ?Q ?l, H : In _ (map Some ?l) |- _ => apply (FA Q l F) in H; cbv beta in H
    | H : In _ (match ?e with Some _ => _ | None => _ end) |- _ => destruct e
    | H : _ \/ _ |- _ => destruct H
    end; cbn [kind_of];
    try match goal with H : kind_of c = _ |- _ => rewrite H end;
    try match goal with H : isExpr (kind_of c) = true |- _ => destruct (kind_of c); try discriminate H end;
    split; try (intros; discriminate); auto; cbn; intuition discriminate.
Qed.

Lemma kind_binding n : kind_of n = NK_Binding -> exists i r p v q, n = NBinding i r p v q.
Proof. destruct n; try discriminate. eauto 8. Qed.
Lemma kind_binds n : kind_of n = NK_Binds -> exists i r bs, n = NBinds i r bs.
Proof. destruct n; try discriminate. eauto 8. Qed.
Lemma kind_attrs n : kind_of n = NK_ExprAttrs -> exists i r bd kw st dy, n = AstModel.NAttrs i r bd kw st dy.
Proof. destruct n; try discriminate. eauto 8. Qed.
Lemma kind_path n : kind_of n = NK_AttrPath -> exists i r names dots, n = NAttrPath i r names dots.
Proof. destruct n; try discriminate. eauto 8. Qed.

Section Paths.
Variables (src : bytes) (root : node) (m : pmap).
Hypothesis Sok : sok src root.
Hypothesis Nd : NoDup (ids root).
Hypothesis Rx : isExpr (kind_of root) = true.
Hypothesis Id : identified root.
Hypothesis Pm : parents root = Ok m.

Lemma ty n : node_of root n -> typed n.
Proof. intro N. eapply sok_typed, node_sok; eauto. Qed.
Lemma below p n : node_of root p -> In n (present (children p)) -> node_of root n.
Proof. intros N I. eapply node_of_trans; [exact N|]. eapply node_child; [exact I|constructor]. Qed.

Lemma one_parent n p q : kind_of n <> NK_Misc -> node_of root p -> node_of root q ->
  In n (present (children p)) -> In n (present (children q)) -> p = q.
Proof.
  intros K Np Nq Ip Iq.
  assert (H : forall p, node_of root p -> In n (present (children p)) -> In p (nodes root) /\ In n (proper p)).
  { clear p q Np Nq Ip Iq. intros p Np Ip. split.
    - destruct (node_in_nodes _ _ _ Sok Np) as [H|H]; [exact H|]. exfalso. eapply misc_leaf; eauto.
    - destruct (children_proper _ _ (ty _ Np) Ip) as [H|[H _]]; [exact H|contradiction]. }
  destruct (H p Np Ip), (H q Nq Iq). eapply single_parent; eauto.
Qed.
Lemma parent_nonmisc n p : In n (present (children p)) -> kind_of p <> NK_Misc.
Proof. intros I K. eapply misc_leaf; eauto. Qed.
Lemma one_chain n l l' : kind_of n <> NK_Misc -> chain root n l -> chain root n l' -> l = l'.
Proof.
  intros K H. revert K l'. induction H as [|n p l I C IH]; intros K l' H'; inversion H'; subst; auto.
  - exfalso. match goal with A : chain _ _ _, B : In root _ |- _ => apply chain_node in A; now apply root_no_child in B end.
  - exfalso. apply chain_node in C. now apply root_no_child in I.
  - f_equal. apply IH; [eapply parent_nonmisc; eauto|]. replace p with p0; auto. eapply one_parent; eauto using chain_node.
Qed.
Lemma up_chain test n l : kind_of n <> NK_Misc -> chain root n l ->
  pup (S (List.length m)) m test n = Ok (find (fun a => test (kind_of a)) l).
Proof.
  intros K C. destruct (up_ok root m test n Id Pm (chain_node _ _ _ C)) as (l' & C' & ->). now rewrite (one_chain n l l' K C C').
Qed.
Lemma query p n : node_of root p -> In n (present (children p)) -> kind_of n <> NK_Misc -> pquery m n = Some p.
Proof.
  intros Np I K. pose proof (below _ _ Np I) as N. destruct (parent_some _ _ _ Pm N) as [q Q]. rewrite Q. f_equal.
  destruct (parent_ok _ _ _ _ Id Pm N Q) as [[E _]|(_ & Nq & Iq)].
  - subst n. exfalso. exact (root_no_child root p Np I).
  - eapply one_parent; eauto.
Qed.
Lemma not_root p n : node_of root p -> In n (present (children p)) -> kind_of n <> NK_Misc -> pis_root m n = false.
Proof.
  intros Np I K. unfold pis_root. rewrite (query p n Np I K). apply Nat.eqb_neq. intro E.
  rewrite (Id p n Np (below _ _ Np I) E) in I. apply present_in, child_size in I. lia.
Qed.
Lemma is_root : pis_root m root = true.
Proof.
  unfold pis_root. destruct (parents_ok root) as (m' & E & _ & R). rewrite Pm in E. injection E as <-.
  unfold pquery. rewrite R. apply Nat.eqb_refl.
Qed.

(** the parts of a set *)
Lemma attrs_binds i r k t bs kw st dy : In (NBinds k t bs) (present (children (AstModel.NAttrs i r (Some (NBinds k t bs)) kw st dy))).
Proof. apply present_in. now left. Qed.
Lemma binds_binding k t bs d : In d bs -> In d (present (children (NBinds k t bs))).
Proof. intro I. apply present_in. cbn [children]. now apply in_map. Qed.
Lemma binding_path i r p v q : In p (present (children (NBinding i r p v q))).
Proof. apply present_in. now left. Qed.
Lemma binding_value i r p v q : In v (present (children (NBinding i r p (Some v) q))).
Proof. apply present_in. cbn [children]. right. right. now left. Qed.
Lemma path_name i r names dots x : In x names -> In x (present (children (NAttrPath i r names dots))).
Proof. intro I. apply present_in. cbn [children]. apply in_map. apply in_or_app. now left. Qed.
Lemma path_dot i r names dots x : In x dots -> In x (present (children (NAttrPath i r names dots))).
Proof. intro I. apply present_in. cbn [children]. apply in_map. apply in_or_app. now right. Qed.

(** names up to one *)
Lemma namesUpTo_spec before0 x after path : ~ In (nid x) (map nid before0) ->
  namesUpTo (before0 ++ x :: after) x path =
  match texts (before0 ++ [x]) with Some p => Some (path ++ p) | None => None end.
Proof.
  revert path. induction before0 as [|y l IH]; intros path H; cbn [app namesUpTo texts].
  - destruct (staticName x); [|reflexivity]. now rewrite Nat.eqb_refl.
  - destruct (staticName y) as [s|]; [|reflexivity]. destruct (Nat.eqb_spec (nid y) (nid x)) as [E|E]; [elim H; now left|].
    rewrite IH by (intro; apply H; now right). destruct (texts (l ++ [x])); [|reflexivity]. now rewrite <- app_assoc.
Qed.
Lemma names_nodup i r names dots : node_of root (NAttrPath i r names dots) -> NoDup (map nid names).
Proof.
  intro N. destruct (node_in_nodes _ _ _ Sok N) as [H|H]; [|discriminate].
  assert (G : forall k n, nsize n <= k -> NoDup (ids n) -> forall c, In c (nodes n) -> NoDup (ids c)).
  { clear. induction k as [|k IH]; intros n L D c H; [pose proof (nsize_pos n); lia|]. rewrite nodes_eq in H. destruct H as [<-|H]; [exact D|].
    apply in_flat_map in H. destruct H as (d & Hd & H). apply (IH d); auto.
    - pose proof (child_size n d (proj1 (present_in _ _) (proper_children _ _ Hd))). lia.
    - rewrite ids_eq in D. inversion D. eapply (NoDup_flat_one ids); eauto. }
  specialize (G (nsize root) root (le_n _) Nd _ H). rewrite ids_eq in G. inversion G as [|? ? _ D]; subst. clear - D.
  cbn [proper children] in D. rewrite present_map in D. unfold lids in D. rewrite flat_map_app in D.
  assert (S : NoDup (flat_map ids names)).
  { revert D. generalize (flat_map ids names) (flat_map ids dots). clear. intros l l2. induction l as [|x l IH]; [constructor|].
    cbn [app]. intro D. inversion D; subst. constructor; auto. intro. apply H1. apply in_or_app. now left. }
  clear D. induction names as [|x names IH]; [constructor|]. cbn [flat_map map] in *. rewrite ids_eq in S. cbn [app] in S.
  inversion S as [|? ? Nx S']; subst. constructor.
  - intro H. apply Nx. apply in_or_app. right. apply in_map_iff in H. destruct H as (y & <- & Hy). apply in_flat_map. exists y.
    split; [exact Hy|]. rewrite ids_eq. now left.
  - apply IH. revert S'. generalize (lids (proper x)). clear. intro l. induction l; [auto|]. cbn [app]. intro D. inversion D; auto.
Qed.
Lemma texts_app l1 l2 : texts (l1 ++ l2) = match texts l1, texts l2 with Some p, Some q => Some (p ++ q) | _, _ => None end.
Proof.
  induction l1 as [|x l1 IH]; cbn [app texts]; [destruct (texts l2); reflexivity|].
  destruct (staticName x); [|reflexivity]. rewrite IH. destruct (texts l1); [|reflexivity]. destruct (texts l2); reflexivity.
Qed.

Lemma select_path i r names dots b0 x after path : node_of root (NAttrPath i r names dots) -> names = b0 ++ x :: after ->
  getSelectAttrPath m x path = Ok (match texts (b0 ++ [x]) with Some p => Some (path ++ p) | None => None end).
Proof.
  intros N ->. pose proof (ty _ N) as T. cbn [typed] in T. destruct T as (_ & Tn & _). rewrite Forall_forall in Tn.
  assert (Kx : kind_of x = NK_AttrName) by (apply Tn; apply in_or_app; right; now left).
  unfold getSelectAttrPath. rewrite (query _ x N); [|apply path_name; apply in_or_app; right; now left|congruence].
  f_equal. apply namesUpTo_spec. apply names_nodup in N. rewrite map_app in N. cbn [map] in N. apply NoDup_remove_2 in N.
  intro H. apply N. apply in_or_app. now left.
Qed.

(** the binding of a value *)
Lemma bindingOf_spec k t bs i r p v q : node_of root (NBinds k t bs) -> In (NBinding i r p (Some v) q) bs -> is_expr v ->
  bindingOf bs v = Some (NBinding i r p (Some v) q).
Proof.
  intros N I X.
  assert (U : forall i2 r2 p2 w q2, In (NBinding i2 r2 p2 (Some w) q2) bs -> nid w = nid v -> NBinding i2 r2 p2 (Some w) q2 = NBinding i r p (Some v) q).
  { intros i2 r2 p2 w q2 I2 E.
    assert (Nb : forall d, In d bs -> node_of root d) by (intros d Hd; apply (below _ _ N), binds_binding, Hd).
    assert (w = v). { apply Id; [eapply below; [apply Nb; exact I2|apply binding_value]|eapply below; [apply Nb; exact I|apply binding_value]|exact E]. }
    subst w. apply (one_parent v); [|apply Nb, I2|apply Nb, I|apply binding_value|apply binding_value].
    intro K. unfold is_expr in X. rewrite K in X. discriminate. }
  clear N. induction bs as [|d bs IH]; [destruct I|]. destruct d; try (destruct I as [I|I]; [discriminate|]; cbn [bindingOf]; apply IH; auto; intros; apply U; auto; now right).
  match goal with |- context [NBinding _ _ _ ?o _ :: _] => destruct o as [w|] end; cbn [bindingOf].
  - destruct (Nat.eqb_spec (nid w) (nid v)) as [E|E].
    + f_equal. apply U; [now left|exact E].
    + destruct I as [I|I]; [inversion I; subst; congruence|]. apply IH; auto. intros; apply U; auto. now right.
  - destruct I as [I|I]; [discriminate|]. apply IH; auto. intros; apply U; auto. now right.
Qed.

Definition open (a : node) : Prop := kind_of a <> NK_Inherit /\ kind_of a <> NK_AttrName.

(** which expression is next above a set *)
Lemma set_parent s l : kind_of s = NK_ExprAttrs -> chain root s (s :: l) -> Forall open l -> s <> root ->
  exists p, In s (present (children p)) /\ node_of root p /\ chain root p l /\
  ((exists i r ap v q k t bs i2 r2 kw st dy, p = NBinding i r ap v q /\
      find (fun a => isExpr (kind_of a)) l = Some (AstModel.NAttrs i2 r2 (Some (NBinds k t bs)) kw st dy) /\
      In p bs /\ node_of root (AstModel.NAttrs i2 r2 (Some (NBinds k t bs)) kw st dy)) \/
   (kind_of p <> NK_Binding /\ exists e, find (fun a => isExpr (kind_of a)) l = Some e /\ kind_of e <> NK_ExprAttrs)).
Proof.
  intros K C O Ne. inversion C as [|? p ? I Cp]; subst; [congruence|]. pose proof (chain_node _ _ _ Cp) as Np.
  exists p. split; [exact I|]. split; [exact Np|]. split; [exact Cp|].
  assert (step : forall c lc, chain root c lc -> isExpr (kind_of c) = false -> exists q l', lc = c :: l' /\ chain root q l' /\ node_of root q /\ In c (present (children q))).
  { intros c lc Cc E. inversion Cc as [|? q l' Iq Cq]; subst; [congruence|]. exists q, l'. eauto using chain_node. }
  destruct (kinds p s (ty _ Np) I) as [K1 K2]. rewrite K in K1, K2. specialize (K2 eq_refl).
  assert (hdx : forall c lc, chain root c lc -> isExpr (kind_of c) = true -> find (fun a => isExpr (kind_of a)) lc = Some c).
  { intros c lc Cc E. inversion Cc; subst; cbn [find]; now rewrite E. }
  assert (skip : forall c lc, isExpr (kind_of c) = false -> find (fun a => isExpr (kind_of a)) (c :: lc) = find (fun a => isExpr (kind_of a)) lc).
  { intros c lc E. cbn [find]. now rewrite E. }
  destruct K2 as [K2|[K2|[K2|[K2|K2]]]].
  - right. split; [intro B; rewrite B in K2; discriminate|]. exists p. split; [now apply hdx|]. intro B. specialize (K1 B). discriminate.
  - right. split; [congruence|].
    destruct (step _ _ Cp ltac:(rewrite K2; reflexivity)) as (q & l' & -> & Cq & Nq & Iq).
    destruct (kinds q p (ty _ Nq) Iq) as [J _]. rewrite K2 in J. rewrite skip by (rewrite K2; reflexivity).
    inversion O as [|? ? _ O']; subst. destruct J as [J|J].
    + destruct (step _ _ Cq ltac:(rewrite J; reflexivity)) as (g & l2 & -> & Cg & Ng & Ig).
      destruct (kinds g q (ty _ Ng) Ig) as [M _]. rewrite J in M. rewrite skip by (rewrite J; reflexivity). exists g.
      destruct M as [M|M]; (split; [apply hdx; [exact Cg|rewrite M; reflexivity]|congruence]).
    + exfalso. inversion Cq; subst; inversion O' as [|? ? [_ B] _]; subst; contradiction.
  - left. destruct (step _ _ Cp ltac:(rewrite K2; reflexivity)) as (q & l' & -> & Cq & Nq & Iq).
    destruct (kinds q p (ty _ Nq) Iq) as [J _]. rewrite K2 in J. rewrite skip by (rewrite K2; reflexivity).
    destruct (step _ _ Cq ltac:(rewrite J; reflexivity)) as (g & l2 & -> & Cg & Ng & Ig).
    destruct (kinds g q (ty _ Ng) Ig) as [M _]. rewrite J in M. rewrite skip by (rewrite J; reflexivity).
    rewrite (hdx g l2 Cg) by (rewrite M; reflexivity).
    destruct (kind_binding p K2) as (i & r & ap & v & q0 & ->).
    destruct (kind_binds q J) as (k & t & bs & ->).
    destruct (kind_attrs g M) as (i2 & r2 & bd & kw & st & dy & ->).
    pose proof (ty _ Ng) as Tg. cbn [typed] in Tg. destruct Tg as (T1 & T2 & _).
    apply present_in in Ig. cbn [children] in Ig. destruct Ig as [Ig|[Ig|[]]]; subst; [|discriminate T2].
    exists i, r, ap, v, q0, k, t, bs, i2, r2, kw, st, dy. split; [reflexivity|]. split; [reflexivity|]. split; [|exact Ng].
    apply present_in in Iq. cbn [children] in Iq. apply in_map_iff in Iq. destruct Iq as (x & E & Hx). now inversion E; subst.
  - exfalso. inversion Cp; subst; inversion O as [|? ? [B _] _]; subst; contradiction.
  - right. split; [congruence|].
    destruct (step _ _ Cp ltac:(rewrite K2; reflexivity)) as (q & l' & -> & Cq & Nq & Iq).
    destruct (kinds q p (ty _ Nq) Iq) as [J _]. rewrite K2 in J. rewrite skip by (rewrite K2; reflexivity).
    destruct (step _ _ Cq ltac:(rewrite J; reflexivity)) as (g & l2 & -> & Cg & Ng & Ig).
    destruct (kinds g q (ty _ Ng) Ig) as [M _]. rewrite J in M. rewrite skip by (rewrite J; reflexivity).
    destruct (step _ _ Cg ltac:(rewrite M; reflexivity)) as (h & l3 & -> & Ch & Nh & Ih).
    destruct (kinds h g (ty _ Nh) Ih) as [R _]. rewrite M in R. rewrite skip by (rewrite M; reflexivity).
    exists h. split; [apply hdx; [exact Ch|rewrite R; reflexivity]|congruence].
Qed.

Lemma a_chain n : node_of root n -> exists l, chain root n l.
Proof. intro N. destruct (up_ok root m isExpr n Id Pm N) as (l & C & _). eauto. Qed.
Lemma chain_sizes n l : chain root n l -> NoDup (map nid l) /\ forall a, In a l -> node_of root a /\ nsize n <= nsize a.
Proof.
  induction 1 as [|n p l I C [IH1 IH2]].
  - split; [constructor; [intros []|constructor]|]. intros a [<-|[]]. split; [constructor|lia].
  - pose proof (child_size _ _ (proj1 (present_in _ _) I)) as L. pose proof (below _ _ (chain_node _ _ _ C) I) as N. split.
    + cbn [map]. constructor; [|exact IH1]. intro H. apply in_map_iff in H. destruct H as (a & E & Ha). destruct (IH2 a Ha) as [Na La].
      rewrite (Id a n Na N E) in La. lia.
    + intros a [<-|Ha]; [auto|]. destruct (IH2 a Ha). split; [auto|lia].
Qed.
Lemma chain_length n l : chain root n l -> List.length l <= List.length m.
Proof.
  intro C. destruct (chain_sizes n l C) as [D S].
  assert (I : incl (map nid l) (map fst m)).
  { intros k H. apply in_map_iff in H. destruct H as (a & <- & Ha). destruct (S a Ha) as [Na _].
    destruct (parent_some _ _ _ Pm Na) as [q Q]. eapply pget_key. exact Q. }
  apply (NoDup_incl_length D) in I. now rewrite !map_length in I.
Qed.

(** the value of a binding: its set and its path *)
Lemma binding_in i2 r2 k t bs kw st dy d : node_of root (AstModel.NAttrs i2 r2 (Some (NBinds k t bs)) kw st dy) -> In d bs ->
  node_of root (NBinds k t bs) /\ node_of root d.
Proof.
  intros N I. assert (Nb : node_of root (NBinds k t bs)) by (apply (below _ _ N), attrs_binds). split; [exact Nb|].
  apply (below _ _ Nb). now apply binds_binding.
Qed.
Lemma value_parent s u names : value_in root s u names -> exists i r j q dots eq,
  node_of root (NBinding i r (NAttrPath j q names dots) (Some s) eq) /\ In s (present (children (NBinding i r (NAttrPath j q names dots) (Some s) eq))).
Proof.
  intros (i & r & j & q & dots & eq & k & t & bs & i2 & r2 & kw & st & dy & -> & N & I).
  exists i, r, j, q, dots, eq. split; [exact (proj2 (binding_in _ _ _ _ _ _ _ _ _ N I))|apply binding_value].
Qed.
Lemma value_unique s u names u' names' : kind_of s <> NK_Misc -> value_in root s u names -> value_in root s u' names' -> u = u' /\ names = names'.
Proof.
  intros K (i & r & j & q & dots & eq & k & t & bs & i2 & r2 & kw & st & dy & -> & N & I)
    (i' & r' & j' & q' & dots' & eq' & k' & t' & bs' & i2' & r2' & kw' & st' & dy' & -> & N' & I').
  destruct (binding_in _ _ _ _ _ _ _ _ _ N I) as [Nb Nd1]. destruct (binding_in _ _ _ _ _ _ _ _ _ N' I') as [Nb' Nd'].
  pose proof (one_parent s _ _ K Nd1 Nd' (binding_value _ _ _ _ _) (binding_value _ _ _ _ _)) as E. rewrite <- E in I'.
  assert (E2 := one_parent (NBinding i r (NAttrPath j q names dots) (Some s) eq) _ _ ltac:(discriminate) Nb Nb' (binds_binding _ _ _ _ I) (binds_binding _ _ _ _ I')).
  injection E2 as <- <- <-.
  assert (E3 := one_parent (NBinds k t bs) _ _ ltac:(discriminate) N N' (attrs_binds _ _ _ _ _ _ _ _) (attrs_binds _ _ _ _ _ _ _ _)).
  split; [exact E3|]. now injection E.
Qed.
Lemma root_outermost p : path_of root root p -> p = [].
Proof.
  intro H. inversion H as [|s u names p' V _]; subst; [reflexivity|]. exfalso.
  destruct (value_parent _ _ _ V) as (i & r & j & q & dots & eq & N & I). exact (root_no_child root _ N I).
Qed.

Lemma attrs_nonmisc s : kind_of s = NK_ExprAttrs -> kind_of s <> NK_Misc.
Proof. congruence. Qed.

(** the value that a set is, when its parent is a binding *)
Lemma binding_of_set i r ap v q s : node_of root (NBinding i r ap v q) -> In s (present (children (NBinding i r ap v q))) -> kind_of s = NK_ExprAttrs ->
  v = Some s /\ exists j t names dots, ap = NAttrPath j t names dots /\ names <> [].
Proof.
  intros N I K. pose proof (ty _ N) as T. cbn [typed] in T. destruct T as (T1 & T2 & T3). unfold is_kind in *.
  destruct (kind_path ap T1) as (j & t & names & dots & E). split.
  - apply present_in in I. cbn [children] in I. destruct I as [I|[I|[I|[]]]].
    + injection I as <-. congruence.
    + subst q. cbn [opt] in T3. congruence.
    + exact I.
  - exists j, t, names, dots. split; [exact E|]. subst ap.
    pose proof (ty _ (below _ _ N (binding_path _ _ _ _ _))) as Tp. cbn [typed] in Tp. tauto.
Qed.

Lemma value_spec f : forall s l, kind_of s = NK_ExprAttrs -> chain root s l -> Forall open l -> List.length l <= f ->
  forall p, path_of root s p -> getValueAttrPath f m s [] = Ok (texts p).
Proof.
  induction f as [|f IH]; intros s l K C O L p H; [inversion C; subst; simpl in L; lia|].
  pose proof (chain_node _ _ _ C) as N.
  destruct (Nat.eq_dec (nid s) (nid root)) as [E|E].
  - assert (s = root) by (apply Id; auto; constructor). subst s. rewrite (root_outermost p H). cbn [getValueAttrPath]. now rewrite is_root.
  - assert (Ne : s <> root) by congruence.
    assert (exists l', l = s :: l') as [l' ->] by (inversion C; subst; eauto).
    inversion O as [|? ? _ O']; subst.
    destruct (set_parent s l' K C O' Ne) as (q & I & Nq & Cq & D).
    cbn [getValueAttrPath]. rewrite (not_root q s Nq I (attrs_nonmisc _ K)), (query q s Nq I (attrs_nonmisc _ K)).
    unfold upExpr. rewrite (up_chain isExpr q l' (parent_nonmisc _ _ I) Cq). cbn [bind].
    destruct D as [(i & r & ap & v & q0 & k & t & bs & i2 & r2 & kw & st & dy & -> & Fd & Ib & Nu)|(Kq & e & Fd & Ke)]; rewrite Fd.
    + destruct (binding_of_set _ _ _ _ _ _ Nq I K) as [-> (j & t2 & names & dots & -> & Hn)].
      set (u := AstModel.NAttrs i2 r2 (Some (NBinds k t bs)) kw st dy) in *.
      assert (V : value_in root s u names).
      { unfold value_in. exists i, r, j, t2, dots, q0, k, t, bs, i2, r2, kw, st, dy. auto. }
      inversion H as [? Ho|? u' names' p' V' Hu]; subst; [exfalso; exact (Ho _ _ V)|].
      destruct (value_unique _ _ _ _ _ (attrs_nonmisc _ K) V' V) as [-> ->].
      destruct (a_chain u Nu) as [lu Cu]. destruct (binding_in _ _ _ _ _ _ _ _ _ Nu Ib) as [Nb Nbd].
      assert (C2 : chain root s (s :: NBinding i r (NAttrPath j t2 names dots) (Some s) q0 :: NBinds k t bs :: lu)).
      { apply (chain_up _ _ _ _ I), (chain_up _ _ _ _ (binds_binding k t bs _ Ib)), (chain_up root _ u); [apply attrs_binds|exact Cu]. }
      pose proof (one_chain _ _ _ (attrs_nonmisc _ K) C C2) as El. injection El as ->.
      assert (R : (if pis_root m u then Ok (Some []) else getValueAttrPath f m u []) = Ok (texts p')).
      { destruct (Nat.eq_dec (nid u) (nid root)) as [Eu|Eu].
        - assert (Er : u = root) by (apply Id; auto; constructor). rewrite Er in Hu |- *. rewrite (root_outermost p' Hu). now rewrite is_root.
        - assert (B : pis_root m u = false).
          { destruct (parent_some _ _ _ Pm Nu) as [w W]. destruct (parent_ok _ _ _ _ Id Pm Nu W) as [[B _]|(_ & Nw & Iw)]; [congruence|].
            apply (not_root w u Nw Iw). discriminate. }
          rewrite B. apply (IH u lu); auto.
          + inversion O' as [|? ? _ O2]; subst. now inversion O2.
          + cbn [List.length] in L. lia. }
      rewrite R. cbn [bind]. destruct (texts p') as [path|] eqn:Tp; [|rewrite texts_app, Tp; reflexivity].
      rewrite (bindingOf_spec k t bs i r _ s q0 Nb Ib) by (unfold is_expr; rewrite K; reflexivity).
      destruct (exists_last Hn) as (b0 & x & ->). cbn [lastName]. rewrite rev_app_distr. cbn [rev app bind].
      rewrite (select_path j t2 (b0 ++ [x]) dots b0 x [] path (below _ _ Nbd (binding_path _ _ _ _ _)) eq_refl).
      rewrite (texts_app p'), Tp. reflexivity.
    + assert (p = []) as ->.
      { inversion H as [|? u names p' V _]; subst; [reflexivity|]. exfalso.
        destruct (value_parent _ _ _ V) as (i & r & j & q1 & dots & eq & N1 & I1).
        pose proof (one_parent s _ _ (attrs_nonmisc _ K) Nq N1 I I1) as B. subst q. now apply Kq. }
      destruct e; try reflexivity. now elim Ke.
Qed.

(** every set has a path *)
Lemma path_ex s : node_of root s -> kind_of s = NK_ExprAttrs -> exists p, path_of root s p.
Proof.
  intros N. destruct (a_chain s N) as [l C].
  assert (G : forall k s l, List.length l <= k -> chain root s l -> kind_of s = NK_ExprAttrs -> exists p, path_of root s p).
  { clear s l C N. induction k as [|k IH]; intros s l L C K; [inversion C; subst; simpl in L; lia|].
    destruct C as [|s q l' I Cq].
    - exists []. apply outermost. intros u names V. destruct (value_parent _ _ _ V) as (i & r & j & q & dots & eq & Nb & Ib). exact (root_no_child root _ Nb Ib).
    - pose proof (chain_node _ _ _ Cq) as Nq. destruct (nodekind_eq_dec (kind_of q) NK_Binding) as [B|B].
      + inversion Cq as [|? g l2 Ig Cg]; subst; [rewrite B in Rx; discriminate|]. pose proof (chain_node _ _ _ Cg) as Ng.
        pose proof (proj1 (kinds g q (ty _ Ng) Ig)) as J. rewrite B in J.
        inversion Cg as [|? h l3 Ih Ch]; subst; [rewrite J in Rx; discriminate|]. pose proof (chain_node _ _ _ Ch) as Nh.
        pose proof (proj1 (kinds h g (ty _ Nh) Ih)) as M. rewrite J in M.
        destruct (kind_binding q B) as (i & r & ap & v & q0 & ->). destruct (kind_binds g J) as (k0 & t & bs & ->).
        destruct (kind_attrs h M) as (i2 & r2 & bd & kw & st & dy & ->).
        destruct (IH _ l3 ltac:(cbn [List.length] in L; lia) Ch M) as [p Hp].
        destruct (binding_of_set _ _ _ _ _ _ Nq I K) as [-> (j & t2 & names & dots & -> & Hn)].
        exists (p ++ names). eapply nested; [|exact Hp].
        pose proof (ty _ Nh) as T. cbn [typed] in T. destruct T as (_ & T2 & _).
        apply present_in in Ih. cbn [children] in Ih. destruct Ih as [Ih|[Ih|[]]]; subst; [|discriminate T2].
        unfold value_in. exists i, r, j, t2, dots, q0, k0, t, bs, i2, r2, kw, st, dy. split; [reflexivity|]. split; [exact Nh|].
        apply present_in in Ig. cbn [children] in Ig. apply in_map_iff in Ig. destruct Ig as (x & Ex & Hx). now injection Ex as <-.
      + exists []. apply outermost. intros u names V. destruct (value_parent _ _ _ V) as (i & r & j & q1 & dots & eq & Nb & Ib).
        pose proof (one_parent s _ _ (attrs_nonmisc _ K) Nq Nb I Ib) as E. subst q. now apply B. }
  exact (G (List.length l) s l (le_n _) C).
Qed.
Lemma path_fun s p : path_of root s p -> kind_of s = NK_ExprAttrs -> forall p', path_of root s p' -> p = p'.
Proof.
  induction 1 as [s Ho|s u names p V H IH]; intros K p' H'; inversion H' as [? Ho'|? u' names' q V' Hq]; subst; auto.
  - exfalso. exact (Ho _ _ V').
  - exfalso. exact (Ho' _ _ V).
  - destruct (value_unique _ _ _ _ _ (attrs_nonmisc _ K) V V') as [-> ->]. f_equal. apply IH; auto.
    destruct V as (i & r & j & q1 & dots & eq & k & t & bs & i2 & r2 & kw & st & dy & -> & _). reflexivity.
Qed.

(** *** findAttrPath *)
Lemma find_none {A} (test : A -> bool) l : Forall (fun a => test a = false) l -> find test l = None.
Proof. induction 1 as [|a l H _ IH]; [reflexivity|]. cbn [find]. now rewrite H. Qed.
Lemma kb_false k k' : k <> k' -> nodekind_beq k k' = false.
Proof. intro H. destruct (nodekind_beq k k') eqn:E; [|reflexivity]. apply internal_nodekind_dec_bl in E. contradiction. Qed.
Lemma none_kind k l : Forall (fun a => kind_of a <> k) l -> find (fun a => nodekind_beq (kind_of a) k) l = None.
Proof. intro H. apply find_none. eapply Forall_impl; [|exact H]. intros a. apply kb_false. Qed.
Lemma dot_leaf n c : kind_of n = NK_Dot -> ~ In c (present (children n)).
Proof. destruct n; try discriminate. intros _ []. Qed.
Lemma no_dots n l : chain root n l -> kind_of n <> NK_Dot -> Forall (fun a => kind_of a <> NK_Dot) l.
Proof.
  induction 1 as [|n p l I C IH]; intro K; constructor; auto. apply IH. intro E. exact (dot_leaf _ _ E I).
Qed.

Section Set_.
Variables (i2 : nat) (r2 : range) (k : nat) (t : range) (bs : list node) (kw : option node) (st : list (bytes * attribute)) (dy : list attribute).
Let u := AstModel.NAttrs i2 r2 (Some (NBinds k t bs)) kw st dy.
Variables (lu : list node) (p : list node).
Hypothesis Cu : chain root u lu.
Hypothesis Ou : Forall open lu.
Hypothesis Hp : path_of root u p.

Lemma Nu : node_of root u.
Proof. eapply chain_node; eauto. Qed.
Lemma value_u : getValueAttrPath (S (List.length m)) m u [] = Ok (texts p).
Proof. apply (value_spec _ u lu); auto. apply chain_length in Cu. lia. Qed.
Lemma chain_bs : chain root (NBinds k t bs) (NBinds k t bs :: lu).
Proof. apply (chain_up root _ u); [apply attrs_binds|exact Cu]. Qed.
Lemma chain_bd d : In d bs -> chain root d (d :: NBinds k t bs :: lu).
Proof. intro I. apply (chain_up root _ (NBinds k t bs)); [now apply binds_binding|apply chain_bs]. Qed.
Lemma hd_u : find (fun a => isExpr (kind_of a)) lu = Some u.
Proof. inversion Cu; subst; reflexivity. Qed.

(** a cursor on a set, its bindings or a binding, with no expression between *)
Lemma at_set n : n = u \/ n = NBinds k t bs \/ (In n bs /\ kind_of n = NK_Binding) ->
  findAttrPath m n = Ok (found p [[]]).
Proof.
  intro H.
  assert (X : exists l, chain root n l /\ kind_of n <> NK_Misc /\ kind_of n <> NK_Dot /\ Forall open l /\ find (fun a => isExpr (kind_of a)) l = Some u).
  { destruct H as [->|[->|[I K]]].
    - exists lu. repeat split; auto using hd_u; discriminate.
    - exists (NBinds k t bs :: lu). split; [apply chain_bs|]. repeat split; try discriminate; [|apply hd_u]. constructor; [split; discriminate|exact Ou].
    - exists (n :: NBinds k t bs :: lu). split; [now apply chain_bd|]. repeat split; try congruence.
      + constructor; [split; congruence|]. constructor; [split; discriminate|exact Ou].
      + cbn [find]. rewrite K. cbn [isExpr kind_of]. apply hd_u. }
  destruct X as (l0 & C & K1 & K2 & O & F). unfold findAttrPath, upTo, upExpr. rewrite !(up_chain _ n l0 K1 C).
  rewrite none_kind by (eapply Forall_impl; [|exact O]; intros a [A _]; exact A). cbn [bind].
  rewrite none_kind by (eapply Forall_impl; [|exact O]; intros a [_ A]; exact A).
  rewrite none_kind by (eapply no_dots; eauto). rewrite F. unfold u at 1. fold u. rewrite value_u. cbn [bind]. unfold thenEmpty, found. now destruct (texts p).
Qed.

Variables (i : nat) (r : range) (j : nat) (q : range) (names dots : list node) (v eq : option node).
Let ap := NAttrPath j q names dots.
Let bd := NBinding i r ap v eq.
Hypothesis Ib : In bd bs.
Variables (b0 : list node) (x : node) (after : list node).
Hypothesis En : names = b0 ++ x :: after.

Lemma Nap : node_of root ap.
Proof. apply (below bd); [|apply binding_path]. exact (chain_node _ _ _ (chain_bd bd Ib)). Qed.
Lemma Kx : kind_of x = NK_AttrName.
Proof. pose proof (ty _ Nap) as T. cbn [typed ap] in T. destruct T as (_ & T & _). rewrite Forall_forall in T. apply T. rewrite En. apply in_or_app. right. now left. Qed.
Lemma chain_ap : chain root ap (ap :: bd :: NBinds k t bs :: lu).
Proof. apply (chain_up root _ bd); [apply binding_path|]. now apply chain_bd. Qed.
Lemma x_child : In x (present (children ap)).
Proof. apply path_name. rewrite En. apply in_or_app. right. now left. Qed.
Lemma chain_x : chain root x (x :: ap :: bd :: NBinds k t bs :: lu).
Proof. apply (chain_up root _ ap); [apply x_child|apply chain_ap]. Qed.
Lemma open_ap : Forall open (ap :: bd :: NBinds k t bs :: lu).
Proof. repeat (constructor; [split; discriminate|]). exact Ou. Qed.
Lemma nested_x : getNestedAttrPath m x [] = Ok (texts (p ++ b0 ++ [x])).
Proof.
  unfold getNestedAttrPath, upExpr. rewrite (up_chain isExpr x _ ltac:(rewrite Kx; discriminate) chain_x). cbn [find]. rewrite Kx.
  cbn [isExpr kind_of ap bd]. rewrite hd_u. cbn [bind]. rewrite value_u. cbn [bind]. rewrite texts_app. destruct (texts p) as [path|]; [|reflexivity].
  rewrite (select_path j q names dots b0 x after path Nap En). reflexivity.
Qed.
(** a cursor on a name *)
Lemma at_name n : n = x \/ In n (present (children x)) -> findAttrPath m n = Ok (found (p ++ b0 ++ [x]) []).
Proof.
  intro H.
  assert (X : exists l, chain root n l /\ kind_of n <> NK_Misc /\ Forall (fun a => kind_of a <> NK_Inherit) l /\ find (fun a => nodekind_beq (kind_of a) NK_AttrName) l = Some x).
  { assert (Ox : Forall (fun a => kind_of a <> NK_Inherit) (x :: ap :: bd :: NBinds k t bs :: lu)).
    { constructor; [rewrite Kx; discriminate|]. eapply Forall_impl; [|apply open_ap]. intros a [A _]. exact A. }
    destruct H as [->|I].
    - eexists. split; [apply chain_x|]. split; [rewrite Kx; discriminate|]. split; [exact Ox|]. cbn [find]. now rewrite Kx.
    - pose proof (ty _ (chain_node _ _ _ chain_x)) as T. pose proof Kx as K. pose proof chain_x as Cx. destruct x; try discriminate K. cbn [typed] in T. pose proof I as I0. apply present_in in I.
      cbn [children] in I. destruct I as [I|[]]. injection I as ->. eexists. split; [exact (chain_up root n _ _ I0 Cx)|].
      unfold is_name in T. split; [intuition congruence|]. split; [constructor; [intuition congruence|exact Ox]|].
      cbn [find]. rewrite kb_false by intuition congruence. reflexivity. }
  destruct X as (l0 & C & K1 & O & F). unfold findAttrPath, upTo. rewrite !(up_chain _ n l0 K1 C).
  rewrite none_kind by exact O. cbn [bind]. rewrite F. rewrite nested_x. cbn [bind]. unfold found. destruct (texts _); [|reflexivity]. now rewrite app_nil_r.
Qed.
(** a cursor on the dot after a name *)
Lemma at_dot n di dr nx : n = NDot di dr (nid x) nx -> In n dots -> findAttrPath m n = Ok (found (p ++ b0 ++ [x]) [[]]).
Proof.
  intros -> I.
  assert (C : chain root (NDot di dr (nid x) nx) (NDot di dr (nid x) nx :: ap :: bd :: NBinds k t bs :: lu)).
  { apply (chain_up root _ ap); [now apply path_dot|apply chain_ap]. }
  assert (O : Forall open (NDot di dr (nid x) nx :: ap :: bd :: NBinds k t bs :: lu)) by (constructor; [split; discriminate|apply open_ap]).
  unfold findAttrPath, upTo. rewrite !(up_chain _ (NDot di dr (nid x) nx) _ ltac:(discriminate) C).
  rewrite none_kind by (eapply Forall_impl; [|exact O]; intros a [A _]; exact A). cbn [bind].
  rewrite none_kind by (eapply Forall_impl; [|exact O]; intros a [_ A]; exact A).
  cbn [find kind_of nodekind_beq bind].
  assert (D : deref m (nid x) = Some x).
  { unfold deref. pose proof (query ap x Nap x_child ltac:(rewrite Kx; discriminate)) as Q. unfold pquery in Q. rewrite Q.
    destruct (find _ (children ap)) as [o|] eqn:F.
    - apply find_some in F. destruct F as [F1 F2]. destruct o as [c|]; [|discriminate]. f_equal. apply Nat.eqb_eq in F2.
      apply Id; auto; apply (below ap _ Nap); [now apply present_in|apply x_child].
    - exfalso. pose proof (List.find_none _ _ F (Some x) (proj1 (present_in _ _) x_child)) as B. cbv beta iota in B. rewrite Nat.eqb_refl in B. discriminate. }
  rewrite D, Kx. cbn [nodekind_beq]. rewrite nested_x. cbn [bind]. unfold thenEmpty, found. now destruct (texts _).
Qed.
End Set_.
End Paths.
