(** What one step of the analysis does to the state, as a relation that composes. *)
From Verif Require Import Base Diag LexModel AstModel SemaModel VlaModel VlaSpec.

(** ** the state monad *)
Lemma vbind_ok {A B} (m : V A) (f : A -> V B) s r s' :
  vbind m f s = Ok (r, s') -> exists a s1, m s = Ok (a, s1) /\ f a s1 = Ok (r, s').
Proof. unfold vbind. destruct (m s) as [[a s1]| |] eqn:E; intros H; try discriminate. eauto. Qed.

Ltac vinv H :=
  match type of H with
  | vbind _ _ _ = Ok _ =>
      let a := fresh "a" in let s1 := fresh "s" in let H1 := fresh "H" in
      apply vbind_ok in H; destruct H as (a & s1 & H1 & H)
  | vret _ _ = Ok _ => injection H; clear H; intros; subst
  | vcrash _ _ = Ok _ => discriminate H
  | _ => progress (cbv beta in H); vinv H
  end.

(** ** facts on maps *)
Lemma nfind_in {A} k (v : A) l : nfind k l = Some v -> In (k, v) l.
Proof.
  induction l as [|[k' v'] l IH]; simpl; [discriminate|].
  destruct (Nat.eqb_spec k k'); intros H; [injection H as <-; subst; now left|right; auto].
Qed.
Lemma nfind_insert_new {A} k (v : A) l k' :
  nfind k' (insert_new k v l) = match nfind k' l with Some w => Some w | None => if Nat.eqb k' k then Some v else None end.
Proof.
  unfold insert_new. destruct (nfind k l) eqn:E.
  - destruct (nfind k' l) eqn:E'; [auto|]. destruct (Nat.eqb_spec k' k); congruence.
  - simpl. destruct (Nat.eqb_spec k' k); [subst; now rewrite E|]. now destruct (nfind k' l).
Qed.
Lemma bytes_eqb_eq x y : bytes_eqb x y = true <-> x = y.
Proof.
  revert y; induction x as [|a x IH]; destruct y as [|c y]; simpl; split; intros H; try discriminate; auto.
  - apply andb_prop in H as [H1 H2]. apply Ascii.eqb_eq in H1. apply IH in H2. now subst.
  - injection H as -> ->. rewrite Ascii.eqb_refl. now apply IH.
Qed.
Lemma bytes_eqb_neq x y : bytes_eqb x y = false <-> x <> y.
Proof.
  split; intros H.
  - intros E. apply bytes_eqb_eq in E. congruence.
  - destruct (bytes_eqb x y) eqn:E; auto. apply bytes_eqb_eq in E. contradiction.
Qed.
Lemma bfind_in {A} k (v : A) l : bfind k l = Some v -> In (k, v) l.
Proof.
  induction l as [|[k' v'] l IH]; simpl; [discriminate|].
  destruct (bytes_eqb k k') eqn:E; intros H; [apply bytes_eqb_eq in E; injection H as <-; subst; now left|right; auto].
Qed.
Lemma bfind_none {A} k (l : list (bytes * A)) : bfind k l = None <-> ~ In k (map fst l).
Proof.
  induction l as [|[k' v'] l IH]; simpl; [tauto|].
  destruct (bytes_eqb k k') eqn:E.
  - apply bytes_eqb_eq in E. subst. split; [discriminate|]. intros H. elim H. now left.
  - apply bytes_eqb_neq in E. rewrite IH. firstorder congruence.
Qed.

(** ** the definitions *)
Definition defn (s : vst) (d : nat) (x : vdef) : Prop := nth_error (v_defs s) d = Some x.
Definition total (s : vst) : nat := List.length (v_defs s).
Lemma defn_lt s d x : defn s d x -> d < total s.
Proof. unfold defn, total. intros H. apply nth_error_Some. congruence. Qed.
Lemma defn_ex s d : d < total s -> exists x, defn s d x.
Proof. unfold defn, total. intros H. apply nth_error_Some in H. destruct (nth_error (v_defs s) d); eauto. congruence. Qed.
Lemma defn_fun s d x y : defn s d x -> defn s d y -> x = y.
Proof. unfold defn. congruence. Qed.

Lemma addUse_nth d u l i :
  nth_error (addUse d u l) i =
  match nth_error l i with
  | Some x => Some (if Nat.eqb i d then VDef (df_syn x) (df_src x) (df_uses x ++ [u]) else x)
  | None => None
  end.
Proof.
  revert d i; induction l as [|x l IH]; intros d i; simpl.
  - destruct d; destruct i; auto.
  - destruct d as [|d]; destruct i as [|i]; simpl; auto. now destruct (nth_error l i).
Qed.
Lemma addUse_length d u l : List.length (addUse d u l) = List.length l.
Proof. revert d; induction l as [|x l IH]; intros [|d]; simpl; auto. Qed.

(** ** using a name *)
(** [m] is in a scope of layer [l] opened by [n], and its name [x] is not captured on the way *)
Definition used (s : scope) (n : node) (l : layer) (x : bytes) (u : nat) : Prop :=
  exists n1 s' v pre, In (l :: s, n1) (enters s n) /\ visit (l :: s) n1 s' v /\ is_var v x /\ nid v = u /\
    s' = pre ++ l :: s /\ unbound pre x.
Definition wused (s : scope) (n : node) : Prop :=
  exists e s' v x, In (WithOf n :: s, e) (enters s n) /\ visit (WithOf n :: s) e s' v /\ is_var v x /\ unbound s' x.

(** what a lookup result says about an occurrence *)
Definition res_ok (st : vst) (s : scope) (x : bytes) (r : lresult) : Prop :=
  match r with
  | Undefined => unbound s x /\ withs s = []
  | FromWith d => unbound s x /\ exists ws w, withs s = ws ++ [w] /\ nfind (nid w) (v_with st) = Some d
  | Defined d =>
      exists l t, bound s x (l :: t) /\ exists y, defn st d y /\
        match l with
        | Prelude _ => df_syn y = None /\ df_src y = DS_Builtin
        | Binds _ names => exists nd, df_syn y = Some nd /\ In (x, (nd, df_src y)) names
        | WithOf _ => False
        end
  end.

(** the environment of the model represents the scope of the specification *)
Definition lrep (st : vst) (l : layer) (f : frame) : Prop :=
  match l with
  | Prelude names =>
      fr_syn f = None /\
      (forall x, bfind x (fr_defs f) = None <-> ~ In x names) /\
      (forall x d, bfind x (fr_defs f) = Some d -> exists y, defn st d y /\ df_syn y = None /\ df_src y = DS_Builtin)
  | Binds who names =>
      fr_syn f = Some who /\ kind_of who <> NK_ExprWith /\
      (forall x, bfind x (fr_defs f) = None <-> ~ In x (map fst names)) /\
      (forall x d, bfind x (fr_defs f) = Some d -> exists y nd, defn st d y /\ df_syn y = Some nd /\ df_src y <> DS_With /\
                                                   In (x, (nd, df_src y)) names)
  | WithOf w =>
      f = Frame [] (Some w) /\ kind_of w = NK_ExprWith /\
      exists d y, nfind (nid w) (v_with st) = Some d /\ defn st d y /\ df_src y = DS_With
  end.
Definition rep (st : vst) (s : scope) (e : env) : Prop := Forall2 (lrep st) s e.

(** the `with` table *)
Definition good (st : vst) : Prop :=
  (forall k d, nfind k (v_with st) = Some d -> exists y, defn st d y /\ df_src y = DS_With) /\
  (forall k k' d, nfind k (v_with st) = Some d -> nfind k' (v_with st) = Some d -> k = k').

Definition watched (k : dkind) : bool :=
  match k with
  | DK_UndefinedVariable | DK_PrimOpNeedsPrefix | DK_UnusedDefLet | DK_UnusedDefLambdaNoArg_Formal
  | DK_UnusedDefLambdaWithArg_Formal | DK_UnusedDefLambdaWithArg_Arg | DK_ExtraRecursive | DK_ExtraWith
  | DK_PrimOpRemovablePrefix | DK_PrimOpUnknown => true
  | _ => false
  end.

Section Post.
(** whether the identities of `with` expressions are unambiguous in the program *)
Variable cohw : Prop.

Record post (U : nat -> nat -> Prop) (W : scope -> node -> Prop) (D : diag -> Prop) (s s' : vst) : Prop := {
  po_len : total s <= total s';
  po_def : forall d x, defn s d x -> exists us, defn s' d (VDef (df_syn x) (df_src x) us);
  po_uses : forall d x x', defn s d x -> df_src x <> DS_With -> defn s' d x' ->
            forall u, In u (df_uses x') <-> In u (df_uses x) \/ U d u;
  po_with : forall k d, nfind k (v_with s) = Some d -> nfind k (v_with s') = Some d;
  po_withnew : forall k d, nfind k (v_with s') = Some d -> nfind k (v_with s) = Some d \/
               (total s <= d /\ exists sc w, W sc w /\ kind_of w = NK_ExprWith /\ nid w = k);
  po_withall : forall sc w, W sc w -> kind_of w = NK_ExprWith -> exists d, nfind (nid w) (v_with s') = Some d;
  po_wscope : forall sc m w, W sc m -> In w (withs sc) -> exists d, nfind (nid w) (v_with s') = Some d;
  po_wuses : forall k d x', nfind k (v_with s') = Some d -> defn s' d x' -> forall u,
             In u (df_uses x') <->
             (exists x, nfind k (v_with s) = Some d /\ defn s d x /\ In u (df_uses x)) \/
             (exists sc v y w, W sc v /\ is_var v y /\ nid v = u /\ unbound sc y /\ In w (withs sc) /\ nid w = k);
  po_new : forall d x, total s <= d -> defn s' d x -> df_src x <> DS_With ->
           exists sc n who names y nd, W sc n /\ opens n = Some (Binds who names) /\
             df_syn x = Some nd /\ In (y, (nd, df_src x)) names /\
             (forall u, In u (df_uses x) <-> used sc n (Binds who names) y u);
  po_wdef : forall d x, total s <= d -> defn s' d x -> df_src x = DS_With ->
            exists sc i r kw semi we e, W sc (NWith i r kw semi we e) /\ nfind i (v_with s') = Some d /\ df_syn x = Some kw;
  po_todef : forall k d, nfind k (v_todef s') = Some d -> nfind k (v_todef s) = Some d \/
             (total s <= d /\ exists x nd, defn s' d x /\ df_syn x = Some nd /\ nid nd = k);
  po_res : forall u r, nfind u (v_res s') = Some r -> nfind u (v_res s) = Some r \/
           exists sc v x, W sc v /\ is_var v x /\ nid v = u /\ res_ok s' sc x r;
  po_resold : forall u r, nfind u (v_res s) = Some r -> nfind u (v_res s') = Some r;
  po_resnew : forall sc v x, W sc v -> is_var v x -> exists r, nfind (nid v) (v_res s') = Some r;
  po_ws : forall u l, nfind u (v_ws s') = Some l -> nfind u (v_ws s) = Some l \/
          exists sc v x, W sc v /\ is_var v x /\ nid v = u /\ unbound sc x /\ withs sc <> [] /\ l = map nid (withs sc);
  po_wsold : forall u l, nfind u (v_ws s) = Some l -> nfind u (v_ws s') = Some l;
  po_wsnew : forall sc v x, W sc v -> is_var v x -> unbound sc x -> withs sc <> [] ->
             exists l, nfind (nid v) (v_ws s') = Some l;
  po_env : forall k e, nfind k (v_envs s') = Some e -> nfind k (v_envs s) = Some e \/
           exists sc m, W sc m /\ nid m = k /\ rep s' sc e;
  po_envold : forall k e, nfind k (v_envs s) = Some e -> nfind k (v_envs s') = Some e;
  po_envnew : forall sc m, W sc m -> exists e, nfind (nid m) (v_envs s') = Some e;
  po_diag : forall dg, watched (d_kind dg) = true -> (d_kind dg <> DK_ExtraWith \/ cohw) ->
            In dg (v_diags s') <-> In dg (v_diags s) \/ D dg;
  po_names : forall sc n who names, W sc n -> opens n = Some (Binds who names) -> NoDup (map fst names);
  po_resuse : forall u d, nfind u (v_res s') = Some (Defined d) -> nfind u (v_res s) = Some (Defined d) \/
              exists y, defn s' d y /\ df_src y <> DS_With /\ In u (df_uses y)
}.

Definition none2 {A B} : A -> B -> Prop := fun _ _ => False.
Definition none1 {A} : A -> Prop := fun _ => False.

Lemma post_refl s : post none2 none2 none1 s s.
Proof.
  unfold none2, none1. constructor; try tauto; try (now intros; left); auto.
  - intros d x H. exists (df_uses x). now destruct x.
  - intros d x x' H _ H'. rewrite (defn_fun _ _ _ _ H H'). tauto.
  - intros k d x' H H' u. split; [intros; left; eauto|]. intros [(x & _ & E & I)|(? & ? & ? & ? & [] & _)].
    now rewrite (defn_fun _ _ _ _ H' E).
  - intros d x H H'. apply defn_lt in H'. lia.
  - intros d x H H'. apply defn_lt in H'. lia.
Qed.

Lemma post_ext U W D U' W' D' s s' :
  (forall d u, U d u <-> U' d u) -> (forall a c, W a c <-> W' a c) -> (forall d, D d <-> D' d) ->
  post U W D s s' -> post U' W' D' s s'.
Proof.
  intros HU HW HD P. destruct P.
  constructor; auto.
  - intros. rewrite <- HU. eauto.
  - intros k d H. destruct (po_withnew0 k d H) as [|(L & sc & w & Hw & Q)]; [now left|]. right. split; auto.
    exists sc, w. split; auto. now apply HW.
  - intros sc w H. apply HW in H. eauto.
  - intros sc m w H. apply HW in H. eauto.
  - intros k d x' H H' u. rewrite (po_wuses0 k d x' H H' u). split; (intros [Q|Q]; [left; exact Q|right]);
      destruct Q as (sc & v & y & w & Q & R); exists sc, v, y, w; (split; [now apply HW|auto]).
  - intros d x H H' H''. destruct (po_new0 d x H H' H'') as (sc & n & who & names & y & nd & Q & R).
    exists sc, n, who, names, y, nd. split; auto. now apply HW.
  - intros d x H H' H''. destruct (po_wdef0 d x H H' H'') as (sc & i & r & kw & semi & we & e & Q & R).
    exists sc, i, r, kw, semi, we, e. split; auto. now apply HW.
  - intros u r H. destruct (po_res0 u r H) as [|(sc & v & x & Q & R)]; [now left|right].
    exists sc, v, x. split; auto. now apply HW.
  - intros sc v x H. apply HW in H. eauto.
  - intros u l H. destruct (po_ws0 u l H) as [|(sc & v & x & Q & R)]; [now left|right].
    exists sc, v, x. split; auto. now apply HW.
  - intros sc v x H. apply HW in H. eauto.
  - intros u r H. destruct (po_env0 u r H) as [|(sc & m & Q & R)]; [now left|right].
    exists sc, m. split; auto. now apply HW.
  - intros sc m H. apply HW in H. eauto.
  - intros dg H H'. rewrite <- HD. auto.
  - intros sc n who names H. apply HW in H. eauto.
Qed.

Lemma lrep_mono s s' l f :
  (forall d x, defn s d x -> exists us, defn s' d (VDef (df_syn x) (df_src x) us)) ->
  (forall k d, nfind k (v_with s) = Some d -> nfind k (v_with s') = Some d) ->
  lrep s l f -> lrep s' l f.
Proof.
  intros Hd Hw. destruct l as [xs|who names|w]; simpl.
  - intros (A & B & C). split; [auto|split; [auto|]]. intros x d H. destruct (C x d H) as (y & Y & E1 & E2).
    destruct (Hd _ _ Y) as [us Q]. eauto.
  - intros (A & B & C & E). split; [auto|split; [auto|split; [auto|]]]. intros x d H.
    destruct (E x d H) as (y & nd & Y & E1 & E2 & E3). destruct (Hd _ _ Y) as [us Q]. eauto 8.
  - intros (A & B & d & y & C & Y & E). split; [auto|split; [auto|]]. destruct (Hd _ _ Y) as [us Q]. eauto 8.
Qed.
Lemma rep_mono' s s' sc e :
  (forall d x, defn s d x -> exists us, defn s' d (VDef (df_syn x) (df_src x) us)) ->
  (forall k d, nfind k (v_with s) = Some d -> nfind k (v_with s') = Some d) ->
  rep s sc e -> rep s' sc e.
Proof. intros Hd Hw H. induction H; constructor; auto. eapply lrep_mono; eauto. Qed.
Lemma rep_post U W D s s' sc e : post U W D s s' -> rep s sc e -> rep s' sc e.
Proof. intros P. apply rep_mono'; apply P. Qed.
Lemma res_ok_mono s s' sc x r :
  (forall d x, defn s d x -> exists us, defn s' d (VDef (df_syn x) (df_src x) us)) ->
  (forall k d, nfind k (v_with s) = Some d -> nfind k (v_with s') = Some d) ->
  res_ok s sc x r -> res_ok s' sc x r.
Proof.
  intros Hd Hw. destruct r as [|d|d]; simpl; auto.
  - intros (A & ws & w & E & F). eauto 8.
  - intros (l & t & B & y & Y & Q). exists l, t. split; auto. destruct (Hd _ _ Y) as [us R].
    exists (VDef (df_syn y) (df_src y) us). split; auto.
Qed.

Definition or2 {A B} (P Q : A -> B -> Prop) : A -> B -> Prop := fun a c => P a c \/ Q a c.
Definition or1 {A} (P Q : A -> Prop) : A -> Prop := fun a => P a \/ Q a.

Lemma post_seq (U1 U2 : nat -> nat -> Prop) (W1 W2 : scope -> node -> Prop) (D1 D2 : diag -> Prop) s s1 s2 :
  good s1 ->
  (forall d u, U2 d u -> d < total s) ->
  post U1 W1 D1 s s1 -> post U2 W2 D2 s1 s2 -> post (or2 U1 U2) (or2 W1 W2) (or1 D1 D2) s s2.
Proof.
  intros Hg Htouch P1 P2. pose proof (po_def _ _ _ _ _ P2) as Hd2. pose proof (po_with _ _ _ _ _ P2) as Hw2.
  destruct P1, P2. unfold or2, or1.
  constructor.
  - lia.
  - intros d x H. destruct (po_def0 d x H) as [us Q]. destruct (po_def1 d _ Q) as [us' Q']. eauto.
  - intros d x x' H Hs H' u. destruct (po_def0 d x H) as [us Q].
    rewrite (po_uses1 d _ x' Q Hs H' u). simpl.
    pose proof (po_uses0 d x _ H Hs Q u) as R. simpl in R. tauto.
  - auto.
  - intros k d H. destruct (po_withnew1 k d H) as [Q|(L & sc & w & Q & R)].
    + destruct (po_withnew0 k d Q) as [|(L & sc & w & R & T)]; [now left|right]. split; auto. exists sc, w. auto.
    + right. split; [lia|]. exists sc, w. auto.
  - intros sc w [H|H] K; [|eauto]. destruct (po_withall0 sc w H K) as [d Q]. eauto.
  - intros sc m w [H|H] K; [|eauto]. destruct (po_wscope0 sc m w H K) as [d Q]. eauto.
  - intros k d x' H H' u. rewrite (po_wuses1 k d x' H H' u). split.
    + intros [(x & Q & X & I)|(sc & v & y & w & Q & R)].
      * apply (po_wuses0 k d x Q X u) in I as [(x0 & A)|(sc & v & y & w & A & B)]; [left; exists x0; exact A|].
        right. exists sc, v, y, w. tauto.
      * right. exists sc, v, y, w. tauto.
    + intros [(x & Q & X & I)|(sc & v & y & w & [Q|Q] & R)].
      * left. destruct (po_def0 d x X) as [us E]. exists (VDef (df_syn x) (df_src x) us). split; [auto|]. split; [auto|].
        apply (po_wuses0 k d _ (po_with0 _ _ Q) E u). left. exists x. auto.
      * left. destruct R as (R1 & R2 & R3 & R4 & R5).
        destruct (po_wscope0 sc v w Q R4) as [d' F]. rewrite R5 in F.
        pose proof (Hw2 _ _ F) as F'. assert (d' = d) by congruence. subst d'.
        destruct (proj1 Hg _ _ F) as (x & X & _).
        exists x. split; [auto|split; [auto|]]. apply (po_wuses0 k d x F X u). right. exists sc, v, y, w. tauto.
      * right. exists sc, v, y, w. tauto.
  - intros d x H H' Hs. destruct (Nat.lt_ge_cases d (total s1)) as [L|L].
    + destruct (defn_ex s1 d L) as [x1 X1]. destruct (Hd2 _ _ X1) as [us E].
      rewrite (defn_fun _ _ _ _ H' E) in *. simpl in Hs.
      destruct (po_new0 d x1 H X1 Hs) as (sc & n & who & names & y & nd & Q & R1 & R2 & R3 & R4).
      exists sc, n, who, names, y, nd. simpl. 
      split; [auto|split; [auto|split; [auto|split; [auto|]]]].
      intros u. pose proof (po_uses1 d x1 _ X1 Hs E u) as T. simpl in T. rewrite T, R4.
      split; [intros [K|K]; [auto|]|auto]. apply Htouch in K. lia.
    + destruct (po_new1 d x L H' Hs) as (sc & n & who & names & y & nd & Q & R).
      exists sc, n, who, names, y, nd. split; auto.
  - intros d x H H' Hs. destruct (Nat.lt_ge_cases d (total s1)) as [L|L].
    + destruct (defn_ex s1 d L) as [x1 X1]. destruct (Hd2 _ _ X1) as [us E].
      rewrite (defn_fun _ _ _ _ H' E) in *. simpl in Hs.
      destruct (po_wdef0 d x1 H X1 Hs) as (sc & i & r & kw & semi & we & e & Q & R & T).
      exists sc, i, r, kw, semi, we, e. auto.
    + destruct (po_wdef1 d x L H' Hs) as (sc & i & r & kw & semi & we & e & Q & R).
      exists sc, i, r, kw, semi, we, e. auto.
  - intros k d H. destruct (po_todef1 k d H) as [Q|(L & x & nd & X & Y)].
    + destruct (po_todef0 k d Q) as [|(L & x & nd & X & Y)]; [now left|right]. split; auto.
      destruct (Hd2 _ _ X) as [us E]. exists (VDef (df_syn x) (df_src x) us), nd. auto.
    + right. split; [lia|]. eauto.
  - intros u r H. destruct (po_res1 u r H) as [Q|(sc & v & x & Q & R)].
    + destruct (po_res0 u r Q) as [|(sc & v & x & R & T & T2 & T3)]; [now left|right]. exists sc, v, x.
      split; [auto|split; [auto|split; [auto|]]]. eapply res_ok_mono; eauto.
    + right. exists sc, v, x. tauto.
  - auto.
  - intros sc v x [H|H] K; [|eauto]. destruct (po_resnew0 sc v x H K) as [r Q]. eauto.
  - intros u r H. destruct (po_ws1 u r H) as [Q|(sc & v & x & Q & R)].
    + destruct (po_ws0 u r Q) as [|(sc & v & x & R & T)]; [now left|right]. exists sc, v, x. tauto.
    + right. exists sc, v, x. tauto.
  - auto.
  - intros sc v x [H|H] K K2 K3; [|eauto]. destruct (po_wsnew0 sc v x H K K2 K3) as [r Q]. eauto.
  - intros u r H. destruct (po_env1 u r H) as [Q|(sc & v & Q & R)].
    + destruct (po_env0 u r Q) as [|(sc & v & R & T & T2)]; [now left|right]. exists sc, v.
      split; [auto|split; [auto|]]. eapply rep_mono'; eauto.
    + right. exists sc, v. auto.
  - auto.
  - intros sc m [H|H]; [|eauto]. destruct (po_envnew0 sc m H) as [r Q]. eauto.
  - intros dg H H'. rewrite (po_diag1 dg H H'), (po_diag0 dg H H'). tauto.
  - intros sc n who names [H|H]; eauto.
  - intros u d H. destruct (po_resuse1 u d H) as [Q|Q]; [|now right].
    destruct (po_resuse0 u d Q) as [|(y & Y & S & I)]; [now left|right].
    destruct (Hd2 _ _ Y) as [us E]. exists (VDef (df_syn y) (df_src y) us). split; [exact E|]. split; [exact S|].
    apply (po_uses1 d y _ Y S E u). now left.
Qed.
End Post.
