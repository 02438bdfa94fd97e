(** What the parser guarantees of the trees it builds: [nok], and how nodes are assembled from groups of nodes
    whose ranges and identities do not meet. *)
From Coq Require Import Permutation.
From Verif Require Import Base Diag LexModel LexSpec LexProofs AstModel PSupModel SemaModel ParseModel ParseSpec ParseInv.

Lemma present_cons o l : present (o :: l) = optlist o ++ present l.
Proof. destruct o; reflexivity. Qed.
Lemma present_nil : present [] = [].
Proof. reflexivity. Qed.
Lemma present_app l1 l2 : present (l1 ++ l2) = present l1 ++ present l2.
Proof. apply flat_map_app. Qed.
Lemma present_map l : present (map Some l) = l.
Proof. induction l as [|x l IH]; [reflexivity|]. cbn [map]. rewrite present_cons, IH. reflexivity. Qed.

Lemma nodes_eq n : nodes n = n :: flat_map nodes (proper n).
Proof.
  assert (L : forall l, (fix ln (l : list node) : list node :=
               match l with [] => [] | m :: l' => nodes m ++ ln l' end) l = flat_map nodes l).
  { induction l as [|x l IH]; [reflexivity|]. cbn [flat_map]. now rewrite <- IH. }
  assert (F : forall l, (fix fn (l : list (bytes + node)) : list node :=
               match l with [] => [] | inl _ :: l' => fn l' | inr m :: l' => nodes m ++ fn l' end) l
              = flat_map nodes (interps l)).
  { induction l as [|[x|x] l IH]; [reflexivity|exact IH|]. 
    change (interps (inr x :: l)) with (x :: interps l). cbn [flat_map]. now rewrite <- IH. }
  assert (O : forall o, flat_map nodes (optlist o) = match o with Some m => nodes m | None => [] end).
  { intros [m|]; cbn; [apply app_nil_r|reflexivity]. }
  destruct n; cbn [nodes proper children]; f_equal;
    try (match goal with |- context [match ?e with Some _ => [?e] | None => _ end] => destruct e end);
    rewrite ?present_app, ?present_cons, ?present_map, ?present_nil, ?app_nil_r;
    cbn [optlist app]; rewrite ?flat_map_app, ?O, ?L, ?F; cbn [flat_map]; rewrite ?flat_map_app, ?O, ?L, ?F, ?app_nil_r; reflexivity.
Qed.

Definition ids (n : node) : list nat := map nid (nodes n).
Definition lids (l : list node) : list nat := flat_map ids l.
Lemma ids_eq n : ids n = nid n :: lids (proper n).
Proof.
  unfold ids. rewrite nodes_eq. cbn [map]. f_equal. induction (proper n) as [|x l IH]; [reflexivity|].
  cbn [flat_map]. unfold lids in *. cbn [flat_map]. now rewrite map_app, IH.
Qed.
Lemma lids_app l1 l2 : lids (l1 ++ l2) = lids l1 ++ lids l2.
Proof. apply flat_map_app. Qed.

(** the identities are distinct and in [a, b) *)
Definition idl (a b : nat) (l : list nat) : Prop := NoDup l /\ Forall (fun i => a <= i < b) l.
Lemma idl_nil a b : idl a b [].
Proof. split; constructor. Qed.
Lemma idl_mono a b a' b' l : idl a b l -> a' <= a -> b <= b' -> idl a' b' l.
Proof. intros [H1 H2] H3 H4. split; [exact H1|]. eapply Forall_impl; [|exact H2]. cbv beta. intros; lia. Qed.
Lemma NoDup_app_intro {A} (l1 l2 : list A) :
  NoDup l1 -> NoDup l2 -> (forall x, In x l1 -> In x l2 -> False) -> NoDup (l1 ++ l2).
Proof.
  intros H1 H2 H. induction H1 as [|x l Hx Hl IH]; [exact H2|]. cbn [app]. constructor.
  - intros Hin. apply in_app_or in Hin as [Hin|Hin]; [auto|]. apply (H x); [now left|exact Hin].
  - apply IH. intros y Hy. apply H. now right.
Qed.
Lemma idl_app a b a1 b1 a2 b2 l1 l2 :
  idl a1 b1 l1 -> idl a2 b2 l2 -> b1 <= a2 \/ b2 <= a1 -> a <= a1 -> a <= a2 -> b1 <= b -> b2 <= b ->
  idl a b (l1 ++ l2).
Proof.
  intros [N1 F1] [N2 F2] D H1 H2 H3 H4. rewrite Forall_forall in F1, F2. split.
  - apply NoDup_app_intro; auto. intros x X1 X2. specialize (F1 x X1). specialize (F2 x X2). cbv beta in *. lia.
  - apply Forall_app. split; apply Forall_forall; intros x Hx.
    + specialize (F1 x Hx). lia.
    + specialize (F2 x Hx). lia.
Qed.
Lemma idl_cons a b a1 b1 i l :
  idl a1 b1 l -> i < a1 \/ b1 <= i -> a <= i -> i < b -> a <= a1 -> b1 <= b -> idl a b (i :: l).
Proof.
  intros H D H1 H2 H3 H4. change (i :: l) with ([i] ++ l). apply (idl_app a b i (S i) a1 b1); auto; try lia.
  split; [constructor; [auto|constructor]|]. constructor; [lia|constructor].
Qed.
Lemma idl_perm a b l l' : Permutation l l' -> idl a b l -> idl a b l'.
Proof.
  intros P [H1 H2]. split; [eapply Permutation_NoDup; eauto|].
  rewrite Forall_forall in *. intros x Hx. apply H2. eapply Permutation_in; [|exact Hx]. now apply Permutation_sym.
Qed.

Lemma FOP_app {A} (R : A -> A -> Prop) l1 l2 :
  ForallOrdPairs R l1 -> ForallOrdPairs R l2 -> (forall x y, In x l1 -> In y l2 -> R x y) ->
  ForallOrdPairs R (l1 ++ l2).
Proof.
  intros H1 H2 H. induction H1 as [|x l Hx Hl IH]; [exact H2|]. cbn [app]. constructor.
  - apply Forall_app. split; [exact Hx|]. apply Forall_forall. intros y Hy. apply H; [now left|exact Hy].
  - apply IH. intros y z Hy Hz. apply H; [now right|exact Hz].
Qed.
Lemma FOP_perm {A} (R : A -> A -> Prop) l l' :
  (forall x y, R x y -> R y x) -> Permutation l l' -> ForallOrdPairs R l -> ForallOrdPairs R l'.
Proof.
  intros Sy Pm. induction Pm as [|x l l' Pm IH|x y l|l l' l'' P1 IH1 P2 IH2]; intros H.
  - exact H.
  - inversion H; subst. constructor; auto. eapply Permutation_Forall; eauto.
  - inversion H as [|? ? F1 H1]; subst. inversion H1 as [|? ? F2 H2]; subst. inversion F1; subst.
    constructor; [|constructor; auto]. constructor; auto.
  - auto.
Qed.
Lemma apart_sym r1 r2 : apart r1 r2 -> apart r2 r1.
Proof. unfold apart. lia. Qed.

Section Tree.
Variable src : bytes.

Definition is_kind (k : nodekind) (n : node) : Prop := kind_of n = k.
Definition is_expr (n : node) : Prop := isExpr (kind_of n) = true.
Definition is_bind (n : node) : Prop := kind_of n = NK_Binding \/ kind_of n = NK_Inherit.
Definition is_name (n : node) : Prop :=
  kind_of n = NK_Identifier \/ kind_of n = NK_ExprString \/ kind_of n = NK_Interpolation.
Definition opt (Q : node -> Prop) (o : option node) : Prop := match o with Some n => Q n | None => True end.

(** the fields of a node are of the classes the C++ types say *)
(** an entry of a table: its key, its value, and which of them ends first; what `inherit (e) x` stands for is a selection *)
Definition entry_typed (a : attribute) : Prop :=
  is_kind NK_AttrName (a_key a) /\ is_expr (a_value a) /\ off (nr (a_key a)) <= off (nr (a_value a)) /\
  (a_kind a = AK_InheritFrom -> is_kind NK_ExprSelect (a_value a)).
Definition typed (n : node) : Prop :=
  match n with
  | NMisc _ _ | NDot _ _ _ _ | NInt _ _ _ | NFloat _ _ | NSPath _ _ _ | NOp _ _ _ | NIdent _ _ _ => True
  | NInterp _ _ e => opt is_expr e
  | NParts _ _ fs => Forall (is_kind NK_Interpolation) (interps fs)
  | NString _ _ p | NPath _ _ p => is_kind NK_InterpolableParts p
  | NParen _ _ e lp rp => opt is_expr e /\ is_kind NK_Misc lp /\ opt (is_kind NK_Misc) rp
  | NVar _ _ i => is_kind NK_Identifier i
  | NAttrName _ _ c => is_name c
  | NAttrPath _ _ names dots =>
      names <> [] /\ Forall (is_kind NK_AttrName) names /\ Forall (is_kind NK_Dot) dots
  | NBinding _ _ p v q => is_kind NK_AttrPath p /\ opt is_expr v /\ opt (is_kind NK_Misc) q
  | NInherit _ _ names e => Forall (is_kind NK_AttrName) names /\ opt is_expr e
  | NBinds _ _ bs => bs <> [] /\ Forall is_bind bs
  | NAttrs _ _ body rc st dy =>
      opt (is_kind NK_Binds) body /\ opt (is_kind NK_Misc) rc /\
      Forall (fun kv => entry_typed (snd kv)) st /\ Forall entry_typed dy
  | NSelect _ _ e dot p d _ =>
      is_expr e /\ opt (is_kind NK_Dot) dot /\ opt (is_kind NK_AttrPath) p /\ opt is_expr d
  | NCall _ _ fn args => is_expr fn /\ args <> [] /\ Forall is_expr args
  | NList _ _ els => Forall is_expr els
  | NIf _ _ c t e => opt is_expr c /\ opt is_expr t /\ opt is_expr e
  | NAssert _ _ c v => opt is_expr c /\ opt is_expr v
  | NLet _ _ kl ki e a =>
      is_kind NK_Misc kl /\ opt (is_kind NK_Misc) ki /\ opt is_expr e /\ opt (is_kind NK_ExprAttrs) a
  | NLegacyLet _ _ kl a => is_kind NK_Misc kl /\ opt (is_kind NK_ExprAttrs) a
  | NWith _ _ kw semi w e =>
      is_kind NK_Misc kw /\ opt (is_kind NK_Misc) semi /\ opt is_expr w /\ opt is_expr e
  | NBinOp _ _ op l r => is_kind NK_Op op /\ opt is_expr l /\ opt is_expr r
  | NHasAttr _ _ op e p => is_kind NK_Op op /\ opt is_expr e /\ opt (is_kind NK_AttrPath) p
  | NUnary _ _ op e => is_kind NK_Op op /\ opt is_expr e
  | NFormal _ r c i d ell =>
      opt (fun m => is_kind NK_Misc m /\ inside (nrange m) r) c /\ opt (is_kind NK_Identifier) i /\
      opt is_expr d /\ opt (is_kind NK_Misc) ell /\ (ell <> None -> i = None /\ d = None)
  | NFormals _ _ ms _ => Forall (is_kind NK_Formal) ms
  | NLambdaArg _ _ i f => opt (is_kind NK_Identifier) i /\ opt (is_kind NK_Formals) f
  | NLambda _ _ a bd => opt (is_kind NK_LambdaArg) a /\ opt is_expr bd /\ a <> None
  end.

Definition local (n : node) : Prop :=
  range_in src (nrange n) /\
  (kind_of n <> NK_InterpolableParts -> off (nl n) < off (nr n)) /\
  typed n /\
  match n with
  | NIdent _ r x => x = text_of src r
  | NInherit _ _ _ _ => occurs (b "inherit") src
  | NAttrs _ r _ (Some m) _ _ => inside (nrange m) r \/ text_of src (nrange m) = b "let"
  | NLegacyLet _ r kl _ => inside (nrange kl) r
  | NBinding _ _ p v _ => opt (fun v => off (nr p) <= off (nl v)) v
  | NLambdaArg _ _ i f => i <> None \/ f <> None
  | NSelect _ _ e dot _ _ _ => opt (fun d => off (nr e) <= off (nl d)) dot
  | _ => True
  end.

(** the other nodes an object refers to *)
Definition extras (n : node) : list node :=
  match n with
  | NAttrs _ _ _ rc st dy =>
      optlist rc ++ map (fun kv => a_key (snd kv)) st ++ map (fun kv => a_value (snd kv)) st ++
      map a_key dy ++ map a_value dy
  | NLegacyLet _ _ kl _ => [kl]
  | NSelect _ _ _ dot _ _ _ => optlist dot
  | NHasAttr _ _ op _ _ => [op]
  | NFormal _ _ c i d _ => optlist c
  | _ => []
  end.
Inductive sok : node -> Prop :=
| sok_intro n : local n -> Forall sok (proper n) -> Forall sok (extras n) ->
    kind_of n = NK_ExprSelect \/ Forall (fun c => inside (nrange c) (nrange n)) (proper n) -> sok n.

Definition shape (n : node) : Prop :=
  Forall (fun c => inside (nrange c) (nrange n)) (proper n) /\
  ForallOrdPairs (fun c d => apart (nrange c) (nrange d)) (proper n).
Definition nok (n : node) : Prop := sok n /\ Forall shape (nodes n).

Lemma sok_local n : sok n -> local n.
Proof. intros H. now destruct H. Qed.
Lemma sok_inside n c : sok n -> kind_of n <> NK_ExprSelect -> In c (proper n) -> inside (nrange c) (nrange n).
Proof. intros [m _ _ _ [H|H]] K I; [contradiction|]. rewrite Forall_forall in H. auto. Qed.
Lemma nok_local n : nok n -> local n.
Proof. intros [H _]. now destruct H. Qed.
Lemma nok_range n : nok n -> range_in src (nrange n).
Proof. intros H. apply (nok_local n H). Qed.

(** a group of nodes with ranges in [lo, hi] that do not meet and identities in [a, b) *)
Record grp (lo hi a b : nat) (l : list node) : Prop := {
  g_ok : Forall nok l;
  g_in : Forall (fun c => lo <= off (nl c) /\ off (nr c) <= hi) l;
  g_apart : ForallOrdPairs (fun c d => apart (nrange c) (nrange d)) l;
  g_ids : idl a b (lids l) }.

Lemma grp_nil lo hi a b : grp lo hi a b [].
Proof. constructor; try constructor; constructor. Qed.
Lemma grp_one lo hi a b n :
  nok n -> idl a b (ids n) -> lo <= off (nl n) -> off (nr n) <= hi -> grp lo hi a b [n].
Proof.
  intros H1 H2 H3 H4. constructor.
  - constructor; [exact H1|constructor].
  - constructor; [lia|constructor].
  - constructor; constructor.
  - unfold lids. cbn [flat_map]. now rewrite app_nil_r.
Qed.
Lemma grp_mono lo hi a b lo' hi' a' b' l :
  grp lo hi a b l -> lo' <= lo -> hi <= hi' -> a' <= a -> b <= b' -> grp lo' hi' a' b' l.
Proof.
  intros [H1 H2 H3 H4] L1 L2 L3 L4. constructor; auto.
  - eapply Forall_impl; [|exact H2]. cbv beta. intros; lia.
  - eapply idl_mono; eauto.
Qed.
Lemma grp_app lo hi a b lo1 hi1 a1 b1 lo2 hi2 a2 b2 l1 l2 :
  grp lo1 hi1 a1 b1 l1 -> grp lo2 hi2 a2 b2 l2 -> hi1 <= lo2 \/ hi2 <= lo1 -> b1 <= a2 \/ b2 <= a1 ->
  lo <= lo1 -> lo <= lo2 -> hi1 <= hi -> hi2 <= hi -> a <= a1 -> a <= a2 -> b1 <= b -> b2 <= b ->
  grp lo hi a b (l1 ++ l2).
Proof.
  intros [A1 A2 A3 A4] [B1 B2 B3 B4] D1 D2 L1 L2 L3 L4 L5 L6 L7 L8. constructor.
  - apply Forall_app. auto.
  - apply Forall_app. split; [eapply Forall_impl; [|exact A2]|eapply Forall_impl; [|exact B2]]; cbv beta; intros; lia.
  - apply FOP_app; auto. intros x y Hx Hy. rewrite Forall_forall in A2, B2.
    specialize (A2 x Hx). specialize (B2 y Hy). unfold apart. unfold nl, nr in *. lia.
  - rewrite lids_app. eapply (idl_app a b a1 b1 a2 b2); eauto.
Qed.
Lemma lids_perm l l' : Permutation l l' -> Permutation (lids l) (lids l').
Proof.
  induction 1.
  - constructor.
  - unfold lids. cbn [flat_map]. now apply Permutation_app_head.
  - unfold lids. cbn [flat_map]. rewrite !app_assoc. apply Permutation_app_tail. apply Permutation_app_comm.
  - eapply Permutation_trans; eauto.
Qed.
Lemma grp_perm lo hi a b l l' : Permutation l l' -> grp lo hi a b l -> grp lo hi a b l'.
Proof.
  intros Pm [H1 H2 H3 H4]. constructor.
  - eapply Permutation_Forall; eauto.
  - eapply Permutation_Forall; eauto.
  - eapply FOP_perm; [|exact Pm|exact H3]. intros x y. apply apart_sym.
  - eapply idl_perm; [|exact H4]. now apply lids_perm.
Qed.

Definition fine (a b : nat) (n : node) : Prop := nok n /\ idl a b (ids n).

(** assembling a node from its parts *)
Lemma mk_ok n l a b a' b' :
  grp (off (nl n)) (off (nr n)) a b l -> Permutation l (proper n) -> local n -> Forall sok (extras n) ->
  a' <= a -> b <= b' -> a' <= nid n < b' -> nid n < a \/ b <= nid n -> fine a' b' n.
Proof.
  intros G Pm L X H1 H2 H3 H4. apply (grp_perm _ _ _ _ _ _ Pm) in G. destruct G as [G1 G2 G3 G4].
  split; [split|].
  - constructor; auto. eapply Forall_impl; [|exact G1]. now intros m [? _].
  - rewrite nodes_eq. constructor.
    + split; [|exact G3]. eapply Forall_impl; [|exact G2]. cbv beta. intros m [? ?]. now split.
    + clear - G1. induction G1 as [|m l [_ Hm] _ IH]; [constructor|]. cbn [flat_map]. apply Forall_app. auto.
  - rewrite ids_eq. eapply (idl_cons a' b' a b); eauto; lia.
Qed.

Lemma fine_mono a b a' b' n : fine a b n -> a' <= a -> b <= b' -> fine a' b' n.
Proof. intros [H1 H2] H3 H4. split; [exact H1|]. eapply idl_mono; eauto. Qed.

(** a leaf *)
Lemma leaf_ok n a b : local n -> proper n = [] -> extras n = [] -> a <= nid n < b -> fine a b n.
Proof.
  intros L E1 E2 H. apply (mk_ok n [] a a); try lia; auto.
  - apply grp_nil.
  - now rewrite E1.
  - rewrite E2. constructor.
Qed.
Lemma fine_grp lo hi a b n : fine a b n -> lo <= off (nl n) -> off (nr n) <= hi -> grp lo hi a b [n].
Proof. intros [H1 H2]. now apply grp_one. Qed.
Definition ofine (a b : nat) (o : option node) : Prop := match o with Some n => fine a b n | None => True end.
Lemma ofine_grp lo hi a b o :
  ofine a b o -> opt (fun n => lo <= off (nl n) /\ off (nr n) <= hi) o -> grp lo hi a b (optlist o).
Proof. destruct o as [n|]; simpl; intros H1 H2; [apply fine_grp; tauto|apply grp_nil]. Qed.
End Tree.
