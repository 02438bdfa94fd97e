(** Facts about the pieces of the analysis: scopes, environments, allocation of definitions, size of trees. *)
From Verif Require Import Base Diag LexModel AstModel SemaModel VlaModel VlaSpec VlaPost.

(** ** scopes *)
Lemma enters_grow s n s1 n1 : In (s1, n1) (enters s n) -> s1 = s \/ exists l, opens n = Some l /\ s1 = l :: s.
Proof.
  assert (G : forall s (l : list node), In (s1, n1) (map (pair s) l) -> s1 = s).
  { intros s0 l H. apply in_map_iff in H as (m & E & _). congruence. }
  assert (S : forall out inn st dy, In (s1, n1) (in_set out inn st dy) -> s1 = out \/ s1 = inn).
  { intros out inn st dy H. unfold in_set in H. apply in_app_iff in H as [H|H].
    - apply in_map_iff in H as (p & E & _). destruct (a_kind (snd p)); injection E as <- _; auto.
    - apply in_flat_map in H as (a & _ & [H|[H|[]]]); injection H as <- _; auto. }
  destruct n; cbn [enters opens]; intros H; try (left; now apply G in H); try (now destruct H).
  - destruct rc as [kw|]; apply S in H as [H|H]; eauto.
  - destruct attrs as [a|]; [destruct a|]; try (apply G in H; subst; right; eauto; fail).
    apply in_app_iff in H as [H|H]; [apply S in H as [H|H]|apply G in H]; eauto.
  - destruct attrs as [a|]; [destruct a|]; try (now destruct H).
    destruct rc as [kw|]; apply S in H as [H|H]; eauto.
  - apply in_app_iff in H as [H|H]; apply G in H; eauto.
  - destruct arg as [a|]; [|destruct H]. destruct body as [bd|]; [|destruct H].
    apply in_app_iff in H as [H|[H|[]]]; [apply G in H|injection H as <- _]; eauto.
Qed.

Lemma visit_grow s n s' m : visit s n s' m -> exists pre, s' = pre ++ s.
Proof.
  induction 1 as [s n|s n s1 n1 s' m H _ [pre IH]]; [now exists []|].
  destruct (enters_grow _ _ _ _ H) as [->|(l & _ & ->)]; [eauto|]. exists (pre ++ [l]). now rewrite <- app_assoc.
Qed.
Lemma visit_trans s n s1 n1 s' m : visit s n s1 n1 -> visit s1 n1 s' m -> visit s n s' m.
Proof. induction 1; auto. intros. econstructor; eauto. Qed.
Lemma visit_var s n s' m : kind_of n = NK_ExprVar -> visit s n s' m -> s' = s /\ m = n.
Proof. intros K H. inversion H; subst; auto. destruct n; try discriminate K. destruct H0. Qed.

(** a layer of a scope was opened by a node on the path *)
Lemma visit_layer s n s' m : visit s n s' m -> forall l t pre p0, s' = pre ++ l :: t -> l :: t = p0 ++ s ->
  (p0 = [] ) \/
  exists o n1, visit s n t o /\ opens o = Some l /\ In (l :: t, n1) (enters t o) /\ visit (l :: t) n1 s' m.
Proof.
  induction 1 as [s n|s n s1 n1 s' m H V IH]; intros l t pre p0 E1 E2.
  - left. destruct p0 as [|a p0]; [auto|]. exfalso. rewrite E1 in E2. clear - E2.
    assert (L : List.length (l :: t) = List.length ((a :: p0) ++ pre ++ l :: t)) by (rewrite <- E2 at 1; reflexivity).
    rewrite !app_length in L. simpl in L. lia.
  - destruct (enters_grow _ _ _ _ H) as [->|(l1 & O & ->)].
    + destruct (IH _ _ _ _ E1 E2) as [|(o & n2 & V1 & O & I & V2)]; auto. right. exists o, n2. split; auto.
      eapply visit_in; eauto.
    + destruct p0 as [|a p0]; [auto|].
      destruct (exists_last (l:=a :: p0)) as (p1 & z & Ez); [discriminate|]. rewrite Ez in *. clear a p0 Ez.
      destruct (Nat.eq_dec (List.length t) (List.length s)) as [L|L].
      * rewrite <- app_assoc in E2. simpl in E2.
        assert (p1 = []). { destruct p1 as [|c p1]; auto. apply (f_equal (@List.length _)) in E2. simpl in E2.
          rewrite app_length in E2. simpl in E2. lia. }
        subst p1. simpl in E2. injection E2 as -> ->.
        (* l = z; the path entered through l1 *)
        destruct (visit_grow _ _ _ _ V) as [q Q]. rewrite Q in E1.
        assert (l1 = z).
        { apply (f_equal (@rev _)) in E1. rewrite !rev_app_distr in E1. simpl in E1.
          rewrite <- !app_assoc in E1. apply app_inv_head in E1. simpl in E1. congruence. }
        subst l1. right. exists n, n1. repeat split; auto. constructor.
      * rewrite <- app_assoc in E2. simpl in E2.
        destruct (visit_grow _ _ _ _ V) as [q Q].
        assert (l1 = z).
        { rewrite Q in E1. change (pre ++ l :: t) with (pre ++ (l :: t)) in E1. rewrite E2 in E1.
          apply (f_equal (@rev _)) in E1. rewrite !rev_app_distr in E1. simpl in E1.
          rewrite <- !app_assoc in E1. apply app_inv_head in E1. simpl in E1. congruence. }
        subst l1. destruct (IH _ _ _ _ E1 E2) as [->|(o & n2 & V1 & O1 & I & V2)].
        -- simpl in E2. injection E2 as -> ->. congruence.
        -- right. exists o, n2. split; auto. eapply visit_in; eauto.
Qed.

Lemma bound_split s x t : bound s x t -> exists pre l t', s = pre ++ l :: t' /\ t = l :: t' /\ unbound pre x /\ declares l x.
Proof.
  induction 1 as [l s x D|l s x t D _ (pre & l' & t' & -> & -> & U & D')].
  - exists [], l, s. repeat split; auto. intros ? [].
  - exists (l :: pre), l', t'. repeat split; auto. intros q [->|Q]; auto.
Qed.
Lemma bound_app pre l t x : unbound pre x -> declares l x -> bound (pre ++ l :: t) x (l :: t).
Proof.
  induction pre as [|a pre IH]; intros U D; simpl; [now constructor|]. constructor 2; [apply U; now left|].
  apply IH; auto. intros q Q. apply U. now right.
Qed.
Lemma unbound_app s1 s2 x : unbound (s1 ++ s2) x <-> unbound s1 x /\ unbound s2 x.
Proof.
  unfold unbound. split.
  - intros H. split; intros l L; apply H; apply in_app_iff; auto.
  - intros [A B] l L. apply in_app_iff in L as [L|L]; auto.
Qed.
Lemma unbound_cons l s x : unbound (l :: s) x <-> ~ declares l x /\ unbound s x.
Proof. unfold unbound. simpl. firstorder congruence. Qed.
Lemma bound_unbound s x t : bound s x t -> unbound s x -> False.
Proof. intros B U. apply bound_split in B as (pre & l & t' & -> & _ & _ & D). apply (U l); auto. apply in_app_iff. right. now left. Qed.
Lemma withs_app s1 s2 : withs (s1 ++ s2) = withs s1 ++ withs s2.
Proof. apply flat_map_app. Qed.

Lemma declares_dec l x : {declares l x} + {~ declares l x}.
Proof. destruct l; simpl; [apply (in_dec (list_eq_dec ascii_dec))|apply (in_dec (list_eq_dec ascii_dec))|now right]. Defined.
Lemma bound_or s x : unbound s x \/ exists t, bound s x t.
Proof.
  induction s as [|l s [U|[t B]]]; [left; intros ? []| |].
  - destruct (declares_dec l x); [right; eexists; now constructor|left; now apply unbound_cons].
  - right. destruct (declares_dec l x); eexists; [now constructor|constructor 2; eauto].
Qed.

(** ** environments *)
Lemma lrep_none st l f x : lrep st l f -> (bfind x (fr_defs f) = None <-> ~ declares l x).
Proof. destruct l as [xs|who names|w]; simpl; [intros (_ & H & _); apply H|intros (_ & _ & H & _); apply H|].
  intros (-> & _ & _). simpl. tauto. Qed.
Lemma lrep_with st l f : lrep st l f -> if isWith f then exists w, l = WithOf w /\ fr_syn f = Some w else
   (forall w, l <> WithOf w).
Proof.
  unfold isWith. destruct l as [xs|who names|w]; simpl.
  - intros (-> & _). congruence.
  - intros (-> & K & _). destruct who; try congruence. now elim K.
  - intros (-> & K & _). simpl. destruct w; try discriminate K. eauto.
Qed.
Lemma walk_some st s e x d ws : rep st s e -> walk x e = (Some d, ws) ->
  exists l t y, bound s x (l :: t) /\ defn st d y /\ df_src y <> DS_With /\
    match l with
    | Prelude _ => df_syn y = None /\ df_src y = DS_Builtin
    | Binds _ names => exists nd, df_syn y = Some nd /\ In (x, (nd, df_src y)) names
    | WithOf _ => False
    end.
Proof.
  intros H. revert d ws. induction H as [|l f s e L R IH]; intros d ws; simpl; [discriminate|].
  pose proof (lrep_none _ _ _ x L) as Hn.
  destruct (bfind x (fr_defs f)) as [d'|] eqn:B.
  - intros E. injection E as <- <-.
    assert (D : declares l x). { destruct (declares_dec l x) as [|N]; auto. apply Hn in N. discriminate. }
    destruct l as [xs|who names|w]; simpl in L.
    + destruct L as (_ & _ & L). destruct (L _ _ B) as (y & Y & E1 & E2). exists (Prelude xs), s, y.
      repeat split; auto; [now constructor|congruence].
    + destruct L as (_ & _ & _ & L). destruct (L _ _ B) as (y & nd & Y & E1 & E2 & E3). exists (Binds who names), s, y.
      repeat split; eauto. now constructor.
    + destruct L as (-> & _). discriminate.
  - destruct (walk x e) as [o ws'] eqn:E. intros Q. injection Q as -> _.
    destruct (IH _ _ eq_refl) as (l' & t & y & Bd & Q). exists l', t, y. split; auto. constructor 2; auto. now apply Hn.
Qed.
Lemma walk_none st s e x ws : rep st s e -> walk x e = (None, ws) ->
  unbound s x /\ map fr_syn ws = map Some (withs s).
Proof.
  intros H. revert ws. induction H as [|l f s e L R IH]; intros ws; simpl.
  - intros E. injection E as <-. split; auto. intros ? [].
  - pose proof (lrep_none _ _ _ x L) as Hn. pose proof (lrep_with _ _ _ L) as Hw.
    destruct (bfind x (fr_defs f)) as [d'|] eqn:B; [discriminate|].
    destruct (walk x e) as [o ws'] eqn:E. intros Q. injection Q as -> <-.
    destruct (IH _ eq_refl) as [U M]. split; [apply unbound_cons; split; auto; now apply Hn|].
    destruct (isWith f).
    + destruct Hw as (w & -> & F). simpl. now rewrite F, M.
    + destruct l; simpl; auto. now elim (Hw w).
Qed.
Lemma rep_walk_bound st s e x t : rep st s e -> bound s x t -> exists d ws, walk x e = (Some d, ws).
Proof.
  intros R B. destruct (walk x e) as [[d|] ws] eqn:E; [eauto|]. apply (walk_none _ _ _ _ _ R) in E as [U _].
  elim (bound_unbound _ _ _ B U).
Qed.
Lemma rep_lt st s e x d : rep st s e -> fst (walk x e) = Some d -> d < total st /\ exists y, defn st d y /\ df_src y <> DS_With.
Proof.
  intros R H. destruct (walk x e) as [o ws] eqn:E. simpl in H. subst o.
  destruct (walk_some _ _ _ _ _ _ R E) as (l & t & y & _ & Y & N & _). split; eauto. eapply defn_lt; eauto.
Qed.
Lemma rep_withs st s e w : rep st s e -> In w (withs s) ->
  kind_of w = NK_ExprWith /\ exists d y, nfind (nid w) (v_with st) = Some d /\ defn st d y /\ df_src y = DS_With.
Proof.
  induction 1 as [|l f s e L R IH]; simpl; [intros []|]. intros H. apply in_app_iff in H as [H|H]; auto.
  destruct l; simpl in H; try (destruct H; fail). destruct H as [<-|[]]. destruct L as (_ & K & Q). auto.
Qed.

(** ** allocation of definitions *)
Lemma minsert_find x d l y : bfind x l = None -> bfind y (minsert x d l) = if bytes_eqb y x then Some d else bfind y l.
Proof.
  induction l as [|[z c] l IH]; simpl; [auto|].
  destruct (bytes_eqb x z) eqn:E; [discriminate|]. intros H. apply bytes_eqb_neq in E.
  destruct (bytes_ltb x z); simpl.
  - destruct (bytes_eqb y x) eqn:Y; auto.
  - rewrite (IH H). destruct (bytes_eqb y z) eqn:Z; auto. destruct (bytes_eqb y x) eqn:Y; auto.
    apply bytes_eqb_eq in Y, Z. congruence.
Qed.
Lemma minsert_keys x d l : forall p, In p (minsert x d l) <-> p = (x, d) \/ In p l.
Proof.
  induction l as [|[z c] l IH]; intros p; simpl; [intuition congruence|].
  destruct (bytes_ltb x z); simpl; [intuition congruence|]. rewrite IH. tauto.
Qed.
Lemma minsert_nodup x d l : bfind x l = None -> NoDup (map fst l) -> NoDup (map fst (minsert x d l)).
Proof.
  induction l as [|[z c] l IH]; simpl; intros B N; [constructor; auto; constructor|].
  destruct (bytes_eqb x z) eqn:E; [discriminate|]. apply bytes_eqb_neq in E. inversion N; subst.
  destruct (bytes_ltb x z); simpl.
  - constructor; auto. simpl. intros [Q|Q]; [congruence|]. apply bfind_none in B. auto.
  - constructor; [|apply IH; auto]. intros Q. apply in_map_iff in Q as ([q e] & <- & Q).
    apply minsert_keys in Q as [Q|Q]; [injection Q as -> _; simpl in *; congruence|]. apply H1. simpl. apply in_map_iff. now exists (q, e).
Qed.
Lemma bfind_nodup {A} k (v : A) l : NoDup (map fst l) -> (In (k, v) l <-> bfind k l = Some v).
Proof.
  intros N. split; [|apply bfind_in]. induction l as [|[z c] l IH]; simpl; [intros []|].
  inversion N; subst. intros [H|H].
  - injection H as -> ->. assert (bytes_eqb k k = true) by now apply bytes_eqb_eq. now rewrite H.
  - destruct (bytes_eqb k z) eqn:E; [|auto]. apply bytes_eqb_eq in E. subst. elim H1. apply in_map_iff.
    now exists (z, v).
Qed.

(** [adds names m s m' s']: one definition per name, in this order *)
Inductive adds : list (bytes * (node * dsource)) -> list (bytes * nat) -> vst -> list (bytes * nat) -> vst -> Prop :=
| adds_nil m s : adds [] m s m s
| adds_cons x nd src names m s s1 m' s' :
    bfind x m = None ->
    v_defs s1 = v_defs s ++ [VDef (Some nd) src []] ->
    v_with s1 = v_with s -> v_res s1 = v_res s -> v_ws s1 = v_ws s -> v_envs s1 = v_envs s ->
    v_todef s1 = (nid nd, total s) :: v_todef s ->
    (forall dg, watched (d_kind dg) = true -> In dg (v_diags s1) <-> In dg (v_diags s)) ->
    adds names (minsert x (total s) m) s1 m' s' ->
    adds ((x, (nd, src)) :: names) m s m' s'.
Lemma adds_app n1 n2 m s m1 s1 m2 s2 : adds n1 m s m1 s1 -> adds n2 m1 s1 m2 s2 -> adds (n1 ++ n2) m s m2 s2.
Proof. induction 1; simpl; auto. intros. econstructor; eauto. Qed.

Lemma adds_facts names m s m' s' : adds names m s m' s' ->
  v_defs s' = v_defs s ++ map (fun p => VDef (Some (fst (snd p))) (snd (snd p)) []) names /\
  v_with s' = v_with s /\ v_res s' = v_res s /\ v_ws s' = v_ws s /\ v_envs s' = v_envs s /\
  (forall k d, nfind k (v_todef s') = Some d -> nfind k (v_todef s) = Some d \/
     exists i x nd src, d = total s + i /\ nth_error names i = Some (x, (nd, src)) /\ nid nd = k) /\
  (forall dg, watched (d_kind dg) = true -> In dg (v_diags s') <-> In dg (v_diags s)) /\
  (forall x, bfind x m' = None <-> bfind x m = None /\ ~ In x (map fst names)) /\
  (forall x d, bfind x m' = Some d <-> bfind x m = Some d \/
     exists i nd src, d = total s + i /\ nth_error names i = Some (x, (nd, src))) /\
  (NoDup (map fst m) -> NoDup (map fst m')).
Proof.
  induction 1 as [m s|x nd src names m s s1 m' s' B E1 E2 E3 E4 E5 E6 E7 A IH].
  - rewrite app_nil_r. simpl. repeat split; auto; try tauto.
    intros [H|(i & ? & ? & _ & H)]; auto. destruct i; discriminate.
  - destruct IH as (F1 & F2 & F3 & F4 & F5 & F6 & F7 & F8 & F9 & F10).
    assert (T : total s1 = S (total s)) by (unfold total; rewrite E1, app_length; simpl; lia).
    repeat split; try congruence.
    + rewrite F1, E1, <- app_assoc. reflexivity.
    + intros k d H. destruct (F6 k d H) as [Q|(i & y & nd' & src' & -> & Q & R)].
      * rewrite E6 in Q. simpl in Q. destruct (Nat.eqb_spec k (nid nd)); [|now left].
        injection Q as <-. right. exists 0, x, nd, src. repeat split; auto.
      * right. exists (S i), y, nd', src'. repeat split; auto. lia.
    + intros Q. apply E7; auto. apply F7; auto.
    + intros Q. apply F7; auto. apply E7; auto.
    + apply F8 in H as [H _]. rewrite minsert_find in H by auto. destruct (bytes_eqb x0 x); [discriminate|auto].
    + apply F8 in H as [H1 H2]. rewrite minsert_find in H1 by auto.
      destruct (bytes_eqb x0 x) eqn:Q; [discriminate|]. apply bytes_eqb_neq in Q. simpl. intuition congruence.
    + intros [H1 H2]. apply F8. rewrite minsert_find by auto. simpl in H2.
      destruct (bytes_eqb x0 x) eqn:Q; [apply bytes_eqb_eq in Q; intuition congruence|intuition].
    + intros H. apply F9 in H as [H|(i & nd' & src' & -> & Q)].
      * rewrite minsert_find in H by auto. destruct (bytes_eqb x0 x) eqn:Q; auto. apply bytes_eqb_eq in Q. subst.
        injection H as <-. right. exists 0, nd, src. split; [lia|auto].
      * right. exists (S i), nd', src'. split; [lia|auto].
    + intros [H|(i & nd' & src' & -> & Q)]; apply F9.
      * left. rewrite minsert_find by auto. destruct (bytes_eqb x0 x) eqn:Q; auto. apply bytes_eqb_eq in Q. subst. congruence.
      * destruct i as [|i]; simpl in Q.
        -- injection Q as -> -> ->. left. rewrite minsert_find by auto.
           assert (bytes_eqb x0 x0 = true) as -> by now apply bytes_eqb_eq. f_equal. lia.
        -- right. exists i, nd', src'. split; [lia|auto].
    + intros N. apply F10. now apply minsert_nodup.
Qed.

Lemma adds_nodup names m s m' s' : adds names m s m' s' -> NoDup (map fst names).
Proof.
  intros H. assert (NoDup (map fst names) /\ forall x, In x (map fst names) -> bfind x m = None) as [Q _]; [|exact Q].
  induction H as [|x nd src names m s s1 m' s' B H1 H2 H3 H4 H5 H6 H7 Ad [IH1 IH2]]; simpl; [split; [constructor|intros _ []]|].
  split.
  - constructor; auto. intros I. apply IH2 in I. rewrite minsert_find in I by auto.
    assert (bytes_eqb x x = true) as E by now apply bytes_eqb_eq. rewrite E in I. discriminate.
  - intros y [<-|I]; [exact B|]. apply IH2 in I. rewrite minsert_find in I by auto. now destruct (bytes_eqb y x).
Qed.

(** ** the size of a tree, through its analysed attributes *)
Fixpoint vsize (n : node) : nat :=
  let os o := match o with Some m => vsize m | None => 0 end in
  let ls := fix ls l := match l with [] => 0 | m :: l' => vsize m + ls l' end in
  let fs := fix fs l := match l with [] => 0 | inl _ :: l' => fs l' | inr m :: l' => vsize m + fs l' end in
  let ss := fix ss (l : list (bytes * (akind * node * node))) :=
    match l with [] => 0 | (_, (_, k, v)) :: l' => vsize k + vsize v + ss l' end in
  let ds := fix ds (l : list (akind * node * node)) :=
    match l with [] => 0 | (_, k, v) :: l' => vsize k + vsize v + ds l' end in
  S match n with
  | NMisc _ _ | NIdent _ _ _ | NDot _ _ _ _ | NInt _ _ _ | NFloat _ _ | NSPath _ _ _ | NOp _ _ _ => 0
  | NInterp _ _ e => os e
  | NParts _ _ l => fs l
  | NString _ _ p | NPath _ _ p => vsize p
  | NParen _ _ e lp rp => os e + vsize lp + os rp
  | NVar _ _ i => vsize i
  | NAttrName _ _ c => vsize c
  | NAttrPath _ _ names dots => ls names + ls dots
  | NBinding _ _ p v q => vsize p + os q + os v
  | NInherit _ _ names e => ls names + os e
  | NBinds _ _ bs => ls bs
  | NAttrs _ _ body rc st dy => os body + os rc + ss st + ds dy
  | NSelect _ _ e _ p d _ => vsize e + os p + os d
  | NCall _ _ fn args => vsize fn + ls args
  | NList _ _ els => ls els
  | NIf _ _ c t e => os c + os t + os e
  | NAssert _ _ c v => os c + os v
  | NLet _ _ kl ki e a => vsize kl + os a + os ki + os e
  | NLegacyLet _ _ kl a => vsize kl + os a
  | NWith _ _ kw semi w e => vsize kw + os semi + os w + os e
  | NBinOp _ _ op l r => vsize op + os l + os r
  | NHasAttr _ _ op e p => vsize op + os e + os p
  | NUnary _ _ op e => vsize op + os e
  | NFormal _ _ c i d ell => os c + os i + os d + os ell
  | NFormals _ _ ms _ => ls ms
  | NLambdaArg _ _ i f => os i + os f
  | NLambda _ _ a bd => os a + os bd
  end.
Definition lsize := fix ls l := match l with [] => 0 | m :: l' => vsize m + ls l' end.
Definition ssize := fix ss (l : list (bytes * (akind * node * node))) :=
    match l with [] => 0 | (_, (_, k, v)) :: l' => vsize k + vsize v + ss l' end.
Definition dsize := fix ds (l : list (akind * node * node)) :=
    match l with [] => 0 | (_, k, v) :: l' => vsize k + vsize v + ds l' end.
Definition fsize := fix fs (l : list (bytes + node)) := match l with [] => 0 | inl _ :: l' => fs l' | inr m :: l' => vsize m + fs l' end.

Lemma lsize_in m l : In m l -> vsize m <= lsize l.
Proof. induction l as [|a l IH]; simpl; [intros []|]. intros [->|H]; [lia|]. apply IH in H. lia. Qed.
Lemma in_somes m l : In m (somes l) <-> In (Some m) l.
Proof.
  unfold somes. rewrite in_flat_map. split.
  - intros (o & I & H). destruct o; [|destruct H]. destruct H as [->|[]]; auto.
  - intros H. exists (Some m). split; auto. now left.
Qed.
Lemma in_set_size n1 s1 out inn st dy : In (s1, n1) (in_set out inn st dy) -> vsize n1 <= ssize st + dsize dy.
Proof.
  unfold in_set. intros H. apply in_app_iff in H as [H|H].
  - apply in_map_iff in H as (p & E & H). injection E as _ <-.
    induction st as [|[x [[k a] v]] st IH]; [destruct H|]. destruct H as [<-|H]; simpl in *; [unfold a_value; simpl; lia|].
    apply IH in H. lia.
  - apply in_flat_map in H as (q & I & H).
    induction dy as [|[[k a] v] dy IH]; [destruct I|]. destruct I as [<-|I]; simpl in *.
    + destruct H as [H|[H|[]]]; injection H as _ <-; unfold a_value, a_key; simpl; lia.
    + apply IH in I. lia.
Qed.
Lemma enters_size s n s1 n1 : In (s1, n1) (enters s n) -> vsize n1 < vsize n.
Proof.
  assert (G : forall s l, In (s1, n1) (map (pair s) l) -> In n1 l).
  { intros s0 l H. apply in_map_iff in H as (m & E & H). congruence. }
  assert (F : forall l, In n1 (interps l) -> vsize n1 <= fsize l).
  { induction l as [|[x|m] l IH]; simpl; [intros []|auto|]. intros [->|H]; [lia|]. apply IH in H. lia. }
  destruct n; cbn [enters]; intros H; try (apply G in H; apply in_somes in H; cbn [children] in H);
    repeat match goal with
    | H : In _ [] |- _ => destruct H
    | H : In (Some _) (map Some _) |- _ => apply in_map_iff in H as (? & H' & H); injection H' as ->
    | H : In _ (_ ++ _) |- _ => apply in_app_iff in H as [H|H]
    | H : In _ (_ :: _) |- _ => destruct H as [H|H]
    | H : Some _ = Some _ |- _ => injection H as ->
    end; subst; cbn [vsize]; try lia;
    try (apply lsize_in in H; unfold lsize in H; lia).
  - apply F in H. unfold fsize in H. lia.
  - destruct rc as [kw|]; apply in_set_size in H; unfold ssize, dsize in H; lia.
  - destruct attrs as [a|]; [destruct a|]; try (apply G in H; apply in_somes in H; destruct H as [->|[]]; lia).
    apply in_app_iff in H as [H|H].
    + apply in_set_size in H; unfold ssize, dsize in H; cbn [vsize]; lia.
    + apply G in H; apply in_somes in H; destruct H as [->|[]]; lia.
  - destruct attrs as [a|]; [destruct a|]; try (destruct H; fail).
    destruct rc as [kw|]; apply in_set_size in H; unfold ssize, dsize in H; cbn [vsize]; lia.
  - apply G in H; apply in_somes in H; destruct H as [->|[]]; lia.
  - apply G in H; apply in_somes in H; destruct H as [->|[]]; lia.
  - destruct ell; [destruct H as [H|[]]; injection H as ->; lia|]. destruct H as [H|[H|[]]]; subst; lia.
  - destruct arg as [a|]; [|destruct H]. destruct body as [bd|]; [|destruct H].
    apply in_app_iff in H as [H|[H|[]]]; [|injection H as _ ->; lia].
    apply G in H. destruct a; try (destruct H; fail). destruct formals as [f|]; [|destruct H].
    destruct f; try (destruct H; fail). simpl in H. cbn [vsize].
    assert (vsize n1 <= lsize members); [|unfold lsize in *; lia].
    apply in_flat_map in H as (q & I & H). apply lsize_in in I. destruct q; try (destruct H; fail).
    destruct dflt; [|destruct H]. destruct H as [->|[]]. cbn [vsize] in I. lia.
Qed.
