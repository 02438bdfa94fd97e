(** The analysis of a whole program. *)
From Verif Require Import Base Diag LexModel AstModel SemaModel VlaModel VlaSpec VlaPost VlaBase VlaProofs VlaDfs VlaMain.

Lemma visit_size s n s' m : visit s n s' m -> (s' = s /\ m = n) \/ vsize m < vsize n.
Proof.
  induction 1 as [|s n s1 n1 s' m I V IH]; [now left|right]. apply enters_size in I. destruct IH as [[-> ->]|IH]; lia.
Qed.
Lemma visit_size_legacy s i r kw a s' m : visit s (NLegacyLet i r kw (Some a)) s' m ->
  (s' = s /\ m = NLegacyLet i r kw (Some a)) \/ vsize m < vsize a.
Proof.
  inversion 1; subst; [now left|right].
  assert (vsize n1 < vsize a).
  { simpl in H0. destruct a; try contradiction. destruct rc; apply in_set_size in H0; cbn [vsize]; fold ssize dsize; lia. }
  apply visit_size in H1 as [[-> ->]|Q]; lia.
Qed.
Lemma opens_who n who names : opens n = Some (Binds who names) -> who = n \/ exists i r kw, n = NLegacyLet i r kw (Some who).
Proof.
  intros H. destruct n; try discriminate H; simpl in H.
  - destruct rc; [|discriminate]. injection H as <- <-. auto.
  - left. destruct attrs as [a|]; [destruct a|]; injection H as <- <-; auto.
  - destruct attrs as [a|]; [|discriminate]. destruct a; try discriminate. destruct rc; [|discriminate]. injection H as <- <-.
    right. repeat eexists.
  - destruct arg as [a|]; [|discriminate]. destruct body; [|discriminate]. injection H as <- <-. auto.
Qed.
Lemma opens_with n w : opens n = Some (WithOf w) -> w = n /\ kind_of n = NK_ExprWith.
Proof.
  intros H. destruct n; try discriminate H; simpl in H.
  - destruct rc; discriminate.
  - destruct attrs as [a|]; [destruct a|]; discriminate.
  - destruct attrs as [a|]; [|discriminate]. destruct a; try discriminate. destruct rc; discriminate.
  - injection H as <-. auto.
  - destruct arg as [a|]; [|discriminate]. destruct body; discriminate.
Qed.
Lemma same_opener s n o l : visit s n s o -> opens n = Some l -> opens o = Some l -> o = n.
Proof.
  intros V On Oo. destruct l as [xs|who names|w].
  - destruct n; try discriminate On; simpl in On.
    + destruct rc; discriminate.
    + destruct attrs as [a|]; [destruct a|]; discriminate.
    + destruct attrs as [a|]; [|discriminate]. destruct a; try discriminate. destruct rc; discriminate.
    + destruct arg as [a|]; [|discriminate]. destruct body; discriminate.
  - destruct (opens_who _ _ _ On) as [->|(i & r & kw & ->)]; destruct (opens_who _ _ _ Oo) as [<-|(i' & r' & kw' & ->)]; auto.
    + apply visit_size in V as [[_ Q]|Q]; [congruence|]. simpl in Q. lia.
    + apply visit_size_legacy in V as [[_ Q]|Q]; [congruence|lia].
    + apply visit_size_legacy in V as [[_ Q]|Q]; [congruence|]. simpl in Q. lia.
  - apply opens_with in On as [-> _]. apply opens_with in Oo as [Q _]. auto.
Qed.

Lemma used_refers s n who names x u : opens n = Some (Binds who names) -> In x (map fst names) ->
  (used s n (Binds who names) x u <-> exists v, refers s n x v /\ nid v = u).
Proof.
  intros O I. split.
  - intros (n1 & s' & v & pre & In1 & V & Iv & <- & -> & Ub). exists v. split; auto.
    exists who, names, (pre ++ Binds who names :: s). split; auto. split; [econstructor; eauto|]. split; auto.
    now apply bound_app.
  - intros (v & (who' & names' & s' & O' & V & Iv & Bd) & <-). rewrite O in O'. injection O' as <- <-.
    destruct (bound_split _ _ _ Bd) as (pre & l & t' & -> & Et & Ub & Dl). injection Et as <- <-.
    destruct (visit_layer _ _ _ _ V (Binds who names) s pre [Binds who names] eq_refl eq_refl) as [Z|(o & n1 & Vo & Oo & Io & Vn)]; [discriminate Z|].
    rewrite (same_opener _ _ _ _ Vo O Oo) in Io. exists n1, (pre ++ Binds who names :: s), v, pre. auto 8.
Qed.
Lemma wused_may s n : opens n = Some (WithOf n) -> (wused s n <-> exists v, may_use s n v).
Proof.
  intros O. split.
  - intros (e & s' & v & x & I & V & Iv & Ub). exists v, x, s'. destruct (visit_grow _ _ _ _ V) as [pre ->].
    exists pre. split; [econstructor; eauto|auto].
  - intros (v & x & s' & pre & V & Iv & Ub & ->).
    destruct (visit_layer _ _ _ _ V (WithOf n) s pre [WithOf n] eq_refl eq_refl) as [Z|(o & n1 & Vo & Oo & Io & Vn)]; [discriminate Z|].
    rewrite (same_opener _ _ _ _ Vo O Oo) in Io. exists n1, (pre ++ WithOf n :: s), v, x. auto.
Qed.

(** ** the builtins *)
Lemma builtinDefs_ok xs : forall m s m' s', builtinDefs xs m s = Ok (m', s') ->
  v_defs s' = v_defs s ++ map (fun _ => VDef None DS_Builtin []) xs /\
  v_with s' = v_with s /\ v_todef s' = v_todef s /\ v_envs s' = v_envs s /\ v_res s' = v_res s /\ v_ws s' = v_ws s /\
  v_diags s' = v_diags s /\
  (forall x, bfind x m' = None <-> bfind x m = None /\ ~ In x xs) /\
  (forall x d, bfind x m' = Some d -> bfind x m = Some d \/ (total s <= d < total s')).
Proof.
  induction xs as [|x xs IH]; intros m s m' s' H; simpl in H.
  - vinv H. rewrite app_nil_r. repeat (split; [reflexivity|]). split; [simpl; tauto|auto].
  - vinv H. unfold addSimple in H0. destruct (bfind x m) eqn:B; [discriminate|]. vinv H0. vinv H0. injection H1 as <- <-.
    apply IH in H as (Q1 & Q2 & Q3 & Q4 & Q5 & Q6 & Q7 & Q8 & Q9). simpl in *.
    rewrite <- app_assoc in Q1. simpl in Q1.
    repeat (split; [assumption|]). split.
    + intros y. rewrite Q8, minsert_find by auto. destruct (bytes_eqb y x) eqn:E.
      * apply bytes_eqb_eq in E. subst. split; [intros [Z _]; discriminate Z|intros [_ Z]; elim Z; now left].
      * assert (x <> y) by (intros Z; subst; rewrite (proj2 (bytes_eqb_eq y y) eq_refl) in E; discriminate).
        split; [intros [Z1 Z2]; split; auto; intros [Z|Z]; contradiction|intros [Z1 Z2]; split; auto; intros Z; apply Z2; now right].
    + intros y d Z. apply Q9 in Z as [Z|Z].
      * rewrite minsert_find in Z by auto. destruct (bytes_eqb y x); [|now left]. injection Z as <-. right.
        unfold total. rewrite Q1, app_length. simpl. lia.
      * right. unfold total in *. simpl in Z. rewrite app_length in Z. simpl in Z. lia.
Qed.

Lemma prelude_names primops x : In x (builtinNames primops) <-> declares (hd (Prelude []) (prelude primops)) x.
Proof.
  unfold builtinNames, prelude, Constants. cbn [hd declares]. rewrite !in_app_iff. simpl. tauto.
Qed.

Definition start primops (root : node) (s1 s : vst) (e : env) : Prop :=
  rep s1 (prelude primops) e /\ v_with s1 = [] /\ v_todef s1 = [] /\ v_envs s1 = [] /\ v_res s1 = [] /\ v_ws s1 = [] /\ v_diags s1 = [] /\
  (forall d y, defn s1 d y -> y = VDef None DS_Builtin []) /\
  VlaPost.post (cohw (prelude primops) root) (UE e (prelude primops) (visit (prelude primops) root)) (visit (prelude primops) root)
    (DV primops (prelude primops) root) s1 s /\ good s.
Definition apart (m : list (bytes * nat)) : Prop := forall x y d, bfind x m = Some d -> bfind y m = Some d -> x = y.
Lemma builtinDefs_apart xs : forall m s m' s', builtinDefs xs m s = Ok (m', s') ->
  apart m -> (forall x d, bfind x m = Some d -> d < total s) -> apart m'.
Proof.
  induction xs as [|x xs IH]; intros m s m' s' H A B; simpl in H.
  - vinv H. exact A.
  - vinv H. unfold addSimple in H0. destruct (bfind x m) eqn:F; [discriminate|]. vinv H0. vinv H0. injection H1 as <- <-.
    apply IH in H; auto; simpl.
    + intros y z d Hy Hz. rewrite minsert_find in Hy, Hz by auto.
      destruct (bytes_eqb y x) eqn:Ey; destruct (bytes_eqb z x) eqn:Ez.
      * apply bytes_eqb_eq in Ey, Ez. congruence.
      * injection Hy as <-. apply B in Hz. unfold total in Hz. lia.
      * injection Hz as <-. apply B in Hy. unfold total in Hy. lia.
      * eapply A; eauto.
    + intros y d Hy. unfold total. simpl. rewrite app_length. simpl. rewrite minsert_find in Hy by auto.
      destruct (bytes_eqb y x); [injection Hy as <-; unfold total; lia|]. apply B in Hy. unfold total in Hy. lia.
Qed.
Lemma vla_begin primops root s : vla primops root = Ok s ->
  exists s1 a, start primops root s1 s [Frame a None] /\ apart a.
Proof.
  intros H. unfold vla in H. destruct (runOnAST primops root vst0) as [[[] s']| |] eqn:E; try discriminate. injection H as ->.
  unfold runOnAST in E. apply vbind_ok in E as (a & s1 & H & E).
  destruct (builtinDefs_ok _ _ _ _ _ H) as (Q1 & Q2 & Q3 & Q4 & Q5 & Q6 & Q7 & Q8 & Q9). simpl in *.
  assert (Hd : forall d y, defn s1 d y -> y = VDef None DS_Builtin []).
  { intros d y Y. unfold defn in Y. rewrite Q1 in Y. apply nth_error_In in Y. apply in_map_iff in Y as (? & Z & _). auto. }
  assert (Rp : rep s1 (prelude primops) [Frame a None]).
  { constructor; [|constructor]. split; [reflexivity|]. split.
    - intros x. cbn [fr_defs]. rewrite Q8. pose proof (prelude_names primops x) as Z. cbn [hd declares prelude] in Z. simpl bfind.
      rewrite <- Z. tauto.
    - intros x d Z. apply Q9 in Z as [Z|Z]; [discriminate|]. destruct (defn_ex s1 d) as [y Y]; [lia|].
      exists y. split; auto. rewrite (Hd _ _ Y). auto. }
  exists s1, a. unfold start.
  assert (G : good s1) by (split; rewrite Q2; discriminate).
  destruct (dfs_ok primops (prelude primops) root eq_refl (S (vsize root)) root (Nat.lt_succ_diag_r _)
    [Frame a None] (prelude primops) s1 s) as [P G']; auto.
  - constructor.
  - intros k d x u Z. rewrite Q2 in Z. discriminate.
  - split; [auto 12|]. eapply builtinDefs_apart; [exact H| |]; intros ? ? ; discriminate.
Qed.
Lemma vla_start primops root s : vla primops root = Ok s -> exists s1 e, start primops root s1 s e.
Proof. intros H. destruct (vla_begin _ _ _ H) as (s1 & a & S & _). eauto. Qed.

(** ** what is reported *)
Lemma diag_iff primops root s dg : vla primops root = Ok s -> watched (d_kind dg) = true ->
  (d_kind dg <> DK_ExtraWith \/ cohw (prelude primops) root) ->
  (In dg (v_diags s) <-> DV primops (prelude primops) root dg).
Proof.
  intros H W C. apply vla_start in H as (s1 & e & _ & _ & _ & _ & _ & _ & Ed & _ & P & _).
  rewrite (po_diag _ _ _ _ _ _ P dg W C), Ed. simpl. tauto.
Qed.

Lemma unusedDiag_kind who x nd src k : d_kind (unusedDiag who x nd src k) = k.
Proof. unfold unusedDiag. destruct src; try reflexivity. destruct (bindingAt _ _); reflexivity. Qed.

Lemma undefined_iff primops root s dg : vla primops root = Ok s -> d_kind dg = DK_UndefinedVariable ->
  (In dg (v_diags s) <-> exists sc v x, occurs_at primops root sc v x /\ unbound sc x /\ withs sc = [] /\
     lookupGlobalPrimOpInfo primops x = NotFound /\ dg = d_arg x (diag0 DK_UndefinedVariable (nrange v))).
Proof.
  intros H K. rewrite (diag_iff _ _ _ _ H); [|rewrite K; reflexivity|left; rewrite K; discriminate].
  unfold DV, occurs_at. split.
  - intros (sc & v & V & [E|E]); [|exfalso; destruct E; simpl in K; congruence]. destruct E; try discriminate K.
    + exists sc, v, x. auto 8.
    + exfalso. rewrite unusedDiag_kind in K. subst k. destruct src; discriminate.
  - intros (sc & v & x & [V Iv] & Ub & Nw & L & ->). exists sc, v. split; auto. left. now constructor.
Qed.
Lemma prefix_iff primops root s dg : vla primops root = Ok s -> d_kind dg = DK_PrimOpNeedsPrefix ->
  (In dg (v_diags s) <-> exists sc v x, occurs_at primops root sc v x /\ unbound sc x /\ withs sc = [] /\
     lookupGlobalPrimOpInfo primops x = PrefixedFound /\
     dg = d_fix (Fix_ (b "use `builtins.` prefix") [TEdit (point (nl v)) (b "builtins.")])
                      (diag0 DK_PrimOpNeedsPrefix (nrange v))).
Proof.
  intros H K. rewrite (diag_iff _ _ _ _ H); [|rewrite K; reflexivity|left; rewrite K; discriminate].
  unfold DV, occurs_at. split.
  - intros (sc & v & V & [E|E]); [|exfalso; destruct E; simpl in K; congruence]. destruct E; try discriminate K.
    + exists sc, v, x. auto 8.
    + exfalso. rewrite unusedDiag_kind in K. subst k. destruct src; discriminate.
  - intros (sc & v & x & [V Iv] & Ub & Nw & L & ->). exists sc, v. split; auto. left. eapply em_prefix; eauto.
Qed.

Lemma unused_iff primops root s dg k0 : vla primops root = Ok s -> (exists src, unusedKind src = Ok k0) -> d_kind dg = k0 ->
  (In dg (v_diags s) <-> exists sc n who names x nd src, visit (prelude primops) root sc n /\
     opens n = Some (Binds who names) /\ In (x, (nd, src)) names /\ unusedKind src = Ok k0 /\
     (forall v, ~ refers sc n x v) /\ dg = unusedDiag who x nd src k0).
Proof.
  intros H [src0 Ks] K. assert (W : watched k0 = true /\ k0 <> DK_ExtraWith /\ k0 <> DK_UndefinedVariable /\ k0 <> DK_PrimOpNeedsPrefix /\ k0 <> DK_ExtraRecursive /\ k0 <> DK_PrimOpRemovablePrefix /\ k0 <> DK_PrimOpUnknown).
  { destruct src0; try discriminate Ks; injection Ks as <-; repeat split; discriminate. }
  destruct W as (W1 & W2 & W3 & W4 & W5 & W6 & W7).
  rewrite (diag_iff _ _ _ _ H); [|rewrite K; auto|left; rewrite K; auto].
  unfold DV. split.
  - intros (sc & n & V & [E|E]); [|exfalso; destruct E; simpl in K; congruence]. destruct E; try (simpl in K; congruence).
    rewrite unusedDiag_kind in K. subst k0. exists sc, n, who, names, x, nd, src.
    split; auto. split; auto. split; auto. split; auto. split; auto.
    intros v Q. apply (H3 (nid v)). apply used_refers; eauto. apply in_map_iff. exists (x, (nd, src)). auto.
  - intros (sc & n & who & names & x & nd & src & V & O & I & Uk & N & ->). exists sc, n. split; auto. left.
    eapply em_unused; eauto. intros u Q. apply used_refers in Q as (v & Q & _); auto; [now elim (N v)|].
    apply in_map_iff. exists (x, (nd, src)). auto.
Qed.

Lemma rec_iff primops root s dg : vla primops root = Ok s -> d_kind dg = DK_ExtraRecursive ->
  (In dg (v_diags s) <-> exists sc n i r bd kw st dy names, visit (prelude primops) root sc n /\
     opens n = Some (Binds (NAttrs i r bd (Some kw) st dy) names) /\
     (forall x v, ~ refers sc n x v) /\ dg = recDiag kw).
Proof.
  intros H K. rewrite (diag_iff _ _ _ _ H); [|rewrite K; reflexivity|left; rewrite K; discriminate].
  unfold DV. split.
  - intros (sc & n & V & [E|E]); [|exfalso; destruct E; simpl in K; congruence]. destruct E; try discriminate K.
    + exfalso. rewrite unusedDiag_kind in K. subst k. destruct src; discriminate.
    + exists sc, n, i, r, bd, kw, st, dy, names. split; auto. split; auto. split; auto.
      intros x v Q. assert (I : In x (map fst names)).
      { destruct Q as (who & names' & s' & O' & _ & _ & Bd). rewrite H0 in O'. injection O' as <- <-.
        destruct (bound_split _ _ _ Bd) as (pre & l & t' & _ & Et & _ & Dl). injection Et as <- <-. exact Dl. }
      apply (H1 x (nid v) I). apply used_refers; eauto.
  - intros (sc & n & i & r & bd & kw & st & dy & names & V & O & N & ->). exists sc, n. split; auto. left.
    eapply em_rec; eauto. intros x u I Q. apply used_refers in Q as (v & Q & _); auto. now elim (N x v).
Qed.
Lemma hint_iff primops root s dg : vla primops root = Ok s ->
  d_kind dg = DK_PrimOpRemovablePrefix \/ d_kind dg = DK_PrimOpUnknown ->
  (In dg (v_diags s) <-> exists sc n, visit (prelude primops) root sc n /\ hints primops n dg).
Proof.
  intros H K. rewrite (diag_iff _ _ _ _ H); [|destruct K as [-> | ->]; reflexivity|left; destruct K as [-> | ->]; discriminate].
  unfold DV. split.
  - intros (sc & n & V & [E|E]); [|eauto]. exfalso. destruct E; simpl in K; try (destruct K; discriminate).
    rewrite unusedDiag_kind in K. destruct K; subst k; destruct src; discriminate.
  - intros (sc & n & V & E). eauto 6.
Qed.
Lemma coherent_cohw primops root : coherent primops root -> cohw (prelude primops) root.
Proof. intros C s1 w1 s2 w2 V1 V2 _ _ E. eapply C; eauto. Qed.
Lemma with_iff primops root s dg : vla primops root = Ok s -> coherent primops root -> d_kind dg = DK_ExtraWith ->
  (In dg (v_diags s) <-> exists sc i r kw semi w e, visit (prelude primops) root sc (NWith i r kw semi w e) /\
     (forall v, ~ may_use sc (NWith i r kw semi w e) v) /\ dg = withDiag kw semi w).
Proof.
  intros H C K. rewrite (diag_iff _ _ _ _ H); [|rewrite K; reflexivity|right; now apply coherent_cohw].
  unfold DV. split.
  - intros (sc & n & V & [E|E]); [|exfalso; destruct E; simpl in K; congruence]. destruct E; try discriminate K.
    + exfalso. rewrite unusedDiag_kind in K. subst k. destruct src; discriminate.
    + subst n. exists sc, i, r, kw, semi, w, e. split; auto. split; auto. intros v Q. apply H1. apply wused_may; eauto.
  - intros (sc & i & r & kw & semi & w & e & V & N & ->). exists sc, (NWith i r kw semi w e). split; auto. left.
    eapply em_with; eauto. intros Q. apply wused_may in Q as [v Q]; auto. now elim (N v).
Qed.

(** ** resolution *)
Lemma query_res primops root s sc v x : vla primops root = Ok s -> coherent primops root -> occurs_at primops root sc v x ->
  exists r, query s v = Some r /\ res_ok s sc x r.
Proof.
  intros H C [V Iv]. apply vla_start in H as (s1 & e & _ & _ & _ & _ & Er & _ & _ & _ & P & _).
  destruct (po_resnew _ _ _ _ _ _ P _ _ _ V Iv) as [r Q]. exists r. split; [exact Q|].
  destruct (po_res _ _ _ _ _ _ P _ _ Q) as [Z|(sc' & v' & x' & V' & Iv' & E & Ok_)]; [rewrite Er in Z; discriminate|].
  destruct (C _ _ _ _ V' V E) as [-> ->]. assert (x' = x) by (destruct Iv, Iv'; congruence). now subst.
Qed.
Lemma withscopes primops root s sc v x : vla primops root = Ok s -> coherent primops root -> occurs_at primops root sc v x ->
  unbound sc x -> getWithScopes s v = map nid (withs sc).
Proof.
  intros H C [V Iv] Ub. apply vla_start in H as (s1 & e & _ & _ & _ & _ & _ & Ew & _ & _ & P & _). unfold getWithScopes.
  destruct (nfind (nid v) (v_ws s)) as [l|] eqn:F.
  - destruct (po_ws _ _ _ _ _ _ P _ _ F) as [Z|(sc' & v' & x' & V' & Iv' & E & _ & _ & ->)]; [rewrite Ew in Z; discriminate|].
    destruct (C _ _ _ _ V' V E) as [-> ->]. reflexivity.
  - destruct (withs sc) as [|w ws] eqn:Ws; [reflexivity|].
    destruct (po_wsnew _ _ _ _ _ _ P _ _ _ V Iv Ub) as [l Q]; [rewrite Ws; discriminate|congruence].
Qed.
Lemma withscopes_bound primops root s sc v x : vla primops root = Ok s -> coherent primops root -> occurs_at primops root sc v x ->
  ~ unbound sc x -> getWithScopes s v = [].
Proof.
  intros H C [V Iv] Ub. apply vla_start in H as (s1 & e & _ & _ & _ & _ & _ & Ew & _ & _ & P & _). unfold getWithScopes.
  destruct (nfind (nid v) (v_ws s)) as [l|] eqn:F; [|reflexivity].
  destruct (po_ws _ _ _ _ _ _ P _ _ F) as [Z|(sc' & v' & x' & V' & Iv' & E & Ub' & _)]; [rewrite Ew in Z; discriminate|].
  destruct (C _ _ _ _ V' V E) as [-> ->]. assert (x' = x) by (destruct Iv, Iv'; congruence). subst. contradiction.
Qed.

(** ** definitions and references *)
Lemma bound_fun s x t t' : bound s x t -> bound s x t' -> t = t'.
Proof.
  intros H. revert t'. induction H as [l s x D|l s x t N B IH]; intros t' H'; inversion H'; subst; auto; contradiction.
Qed.
Lemma res_defined primops root s u d : vla primops root = Ok s -> nfind u (v_res s) = Some (Defined d) ->
  exists y, nth_error (v_defs s) d = Some y /\ In u (df_uses y).
Proof.
  intros H Q. apply vla_start in H as (s1 & e & _ & _ & _ & _ & Er & _ & _ & _ & P & _).
  destruct (po_resuse _ _ _ _ _ _ P _ _ Q) as [Z|(y & Y & _ & I)]; [rewrite Er in Z; discriminate|]. eauto.
Qed.
Lemma use_defined primops root s d y u : vla primops root = Ok s -> coherent primops root ->
  nth_error (v_defs s) d = Some y -> df_src y <> DS_With -> In u (df_uses y) ->
  exists sc v x d' y', occurs_at primops root sc v x /\ nid v = u /\ query s v = Some (Defined d') /\
    nth_error (v_defs s) d' = Some y' /\ df_syn y' = df_syn y /\ df_src y' = df_src y.
Proof.
  intros H C Y Sy I. pose proof H as H'. apply vla_start in H' as (s1 & e & Rp & _ & _ & _ & _ & _ & _ & Hd & P & _).
  destruct (Nat.lt_ge_cases d (total s1)) as [L|L].
  - destruct (defn_ex s1 d L) as [y0 Y0]. pose proof (Hd _ _ Y0) as E0.
    assert (N0 : df_src y0 <> DS_With) by (rewrite E0; discriminate).
    apply (po_uses _ _ _ _ _ _ P _ _ _ Y0 N0 Y) in I as [I|I]; [rewrite E0 in I; contradiction|].
    destruct I as (sc & v & x & pre & V & Iv & Eu & Es & Ub & Wk).
    assert (O : occurs_at primops root sc v x) by now split.
    destruct (query_res _ _ _ _ _ _ H C O) as (r & Q & Rk).
    destruct (walk_fst _ _ _ _ _ Rp Wk) as (l & t & Bd).
    assert (Bd' : bound sc x (l :: t)).
    { rewrite Es. clear - Bd Ub. induction pre as [|z pre IH]; auto. apply unbound_cons in Ub as [U1 U2]. apply bound_up; auto. }
    destruct r as [|d'|d']; simpl in Rk.
    + destruct Rk as [Rk _]. exfalso. eapply bound_unbound; eauto.
    + destruct Rk as [Rk _]. exfalso. eapply bound_unbound; eauto.
    + destruct Rk as (l' & t' & Bd2 & y' & Y' & M). pose proof (bound_fun _ _ _ _ Bd' Bd2) as E. injection E as <- <-.
      assert (Pl : exists xs, l = Prelude xs).
      { inversion Bd; subst; [eauto|]. match goal with Z : bound [] _ _ |- _ => inversion Z end. }
      destruct Pl as [xs ->]. destruct M as [M1 M2].
      destruct (po_def _ _ _ _ _ _ P _ _ Y0) as [us Y1]. pose proof (defn_fun _ _ _ _ Y Y1) as E1. rewrite E0 in E1. simpl in E1.
      exists sc, v, x, d', y'. split; auto. split; auto. split; auto. split; auto. rewrite E1. simpl. auto.
  - destruct (po_new _ _ _ _ _ _ P _ _ L Y Sy) as (sc & n & who & names & x & nd & V & O & S & Ix & Us).
    apply Us in I. apply used_refers in I as (v & (who' & names' & s' & O' & Vv & Iv & Bd) & Eu); auto.
    2:{ apply in_map_iff. eexists. split; [|exact Ix]. reflexivity. }
    rewrite O in O'. injection O' as <- <-.
    assert (Oc : occurs_at primops root s' v x) by (split; auto; eapply visit_trans; eauto).
    destruct (query_res _ _ _ _ _ _ H C Oc) as (r & Q & Rk).
    destruct r as [|d'|d']; simpl in Rk.
    + destruct Rk as [Rk _]. exfalso. eapply bound_unbound; eauto.
    + destruct Rk as [Rk _]. exfalso. eapply bound_unbound; eauto.
    + destruct Rk as (l' & t' & Bd2 & y' & Y' & M). pose proof (bound_fun _ _ _ _ Bd Bd2) as E. injection E as <- <-.
      destruct M as (nd' & M1 & M2).
      pose proof (po_names _ _ _ _ _ _ P _ _ _ _ V O) as Nd.
      assert (E : (nd', df_src y') = (nd, df_src y)).
      { eapply bfind_nodup in M2; auto. eapply bfind_nodup in Ix; auto. congruence. }
      injection E as <- Es. exists s', v, x, d', y'. split; auto. split; auto. split; auto. split; auto. split; congruence.
Qed.
Lemma layer_nodup primops root s sc n who names : vla primops root = Ok s -> visit (prelude primops) root sc n ->
  opens n = Some (Binds who names) -> NoDup (map fst names).
Proof.
  intros H V O. apply vla_start in H as (s1 & e & _ & _ & _ & _ & _ & _ & _ & _ & P & _).
  eapply (po_names _ _ _ _ _ _ P); eauto.
Qed.

(** ** a scope layer that nothing needs can go *)
Lemma enters_base t s n s1 n1 : In (s1, n1) (enters s n) -> exists p, s1 = p ++ s /\ In (p ++ t, n1) (enters t n).
Proof.
  assert (G : forall q l, In (s1, n1) (map (pair (q ++ s)) l) -> exists p, s1 = p ++ s /\ In (p ++ t, n1) (map (pair (q ++ t)) l)).
  { intros q l I. apply in_map_iff in I as (m & E & I). injection E as <- <-. exists q. split; auto. now apply in_map. }
  assert (S : forall q st dy, In (s1, n1) (in_set s (q ++ s) st dy) ->
    exists p, s1 = p ++ s /\ In (p ++ t, n1) (in_set t (q ++ t) st dy)).
  { intros q st dy I. unfold in_set in *. apply in_app_iff in I as [I|I].
    - apply in_map_iff in I as (m & E & I). destruct (a_kind (snd m)) eqn:K; injection E as <- <-.
      + exists q. split; auto. apply in_app_iff. left. apply in_map_iff. exists m. rewrite K. auto.
      + exists []. split; auto. apply in_app_iff. left. apply in_map_iff. exists m. rewrite K. auto.
      + exists q. split; auto. apply in_app_iff. left. apply in_map_iff. exists m. rewrite K. auto.
    - apply in_flat_map in I as (a & I & J). simpl in J. destruct J as [J|[J|[]]]; injection J as <- <-;
        exists q; (split; [reflexivity|]); apply in_app_iff; right; apply in_flat_map; exists a; simpl; auto. }
  intros I. destruct n; cbn [enters] in *; try (exact (G [] _ I)); try contradiction.
  - destruct rc; [exact (S [_] _ _ I)|exact (S [] _ _ I)].
  - destruct attrs as [a|]; [destruct a|]; try (exact (G [_] _ I)).
    apply in_app_iff in I as [I|I]; [apply (S [_]) in I as (p & E & I)|apply (G [_]) in I as (p & E & I)];
      exists p; (split; [exact E|]); apply in_app_iff; auto.
  - destruct attrs as [a|]; [|contradiction]. destruct a; try contradiction. destruct rc; [exact (S [_] _ _ I)|exact (S [] _ _ I)].
  - apply in_app_iff in I as [I|I]; [apply (G []) in I as (p & E & I)|apply (G [_]) in I as (p & E & I)];
      exists p; (split; [exact E|]); apply in_app_iff; auto.
  - destruct arg as [a|]; [|contradiction]. destruct body; [|contradiction].
    apply in_app_iff in I as [I|I].
    + apply (G [_]) in I as (p & E & I). exists p. split; auto. apply in_app_iff. auto.
    + destruct I as [I|[]]. injection I as <- <-. exists [Binds (NLambda id r (Some a) (Some n)) (params a)]. split; auto.
      apply in_app_iff. right. now left.
Qed.
Lemma visit_base s n s' m : visit s n s' m -> forall t, exists p, s' = p ++ s /\ visit t n (p ++ t) m.
Proof.
  induction 1 as [s n|s n s1 n1 s' m I V IH]; intros t.
  - exists []. split; auto. constructor.
  - destruct (enters_base t s n s1 n1 I) as (p & -> & I'). destruct (IH (p ++ t)) as (q & -> & V').
    exists (q ++ p). rewrite <- !app_assoc. split; auto. econstructor; eauto.
Qed.
Lemma bound_skip p l s x : ~ bound (p ++ l :: s) x (l :: s) ->
  (unbound (p ++ l :: s) x -> unbound (p ++ s) x) /\
  forall h t, bound (p ++ l :: s) x (h :: t) -> exists t', bound (p ++ s) x (h :: t').
Proof.
  intros N. split.
  - rewrite !unbound_app, unbound_cons. tauto.
  - induction p as [|z p IH]; simpl in *; intros h t H.
    + inversion H; subst; [now elim N|]. eauto.
    + inversion H; subst; [eexists; now constructor|].
      destruct IH with (h := h) (t := t) as [t' Q]; auto.
      { intros B. apply N. constructor; auto. }
      exists t'. now constructor.
Qed.

Lemma rec_useless s i r bd kw st dy :
  (forall x v, ~ refers s (NAttrs i r bd (Some kw) st dy) x v) ->
  forall s' v x, visit s (NAttrs i r bd (Some kw) st dy) s' v -> is_var v x ->
  exists s'', visit s (NAttrs i r bd None st dy) s'' v /\ same_meaning x s' s''.
Proof.
  intros N s' v x V Iv. inversion V; subst; [destruct Iv; discriminate|].
  set (L := Binds (NAttrs i r bd (Some kw) st dy) (fields_of DS_Rec st)) in *.
  assert (Q : (s1 = s /\ In (s, n1) (in_set s s st dy)) \/ (s1 = L :: s /\ In (s, n1) (in_set s s st dy))).
  { clear - H. simpl in H. fold L in H. unfold in_set in *. apply in_app_iff in H as [H|H].
    - apply in_map_iff in H as (m & E & I). destruct (a_kind (snd m)) eqn:K; injection E as <- <-; [right|left|right]; (split; [reflexivity|]);
        apply in_app_iff; left; apply in_map_iff; exists m; rewrite K; auto.
    - apply in_flat_map in H as (a & I & J). right. simpl in J.
      destruct J as [J|[J|[]]]; injection J as <- <-; (split; [reflexivity|]); apply in_app_iff; right; apply in_flat_map; exists a; simpl; auto. }
  destruct Q as [[-> I]|[-> I]].
  - exists s'. split; [econstructor; [exact I|exact H0]|]. split; [auto|eauto].
  - destruct (visit_base _ _ _ _ H0 s) as (p & -> & V'). exists (p ++ s). split; [econstructor; [exact I|exact V']|].
    destruct (bound_skip p L s x) as [B1 B2].
    + intros B. apply (N x v). exists (NAttrs i r bd (Some kw) st dy), (fields_of DS_Rec st), (p ++ L :: s). auto.
    + split; [intros U; split; [auto|now rewrite !withs_app]|exact B2].
Qed.
Lemma with_useless s i r kw semi w e :
  (forall v, ~ may_use s (NWith i r kw semi w (Some e)) v) ->
  forall s' v x, visit (WithOf (NWith i r kw semi w (Some e)) :: s) e s' v -> is_var v x ->
  exists s'', visit s e s'' v /\ same_meaning x s' s''.
Proof.
  intros N s' v x V Iv. set (n := NWith i r kw semi w (Some e)) in *.
  destruct (visit_base _ _ _ _ V s) as (p & -> & V'). exists (p ++ s). split; auto.
  assert (Nu : ~ unbound (p ++ WithOf n :: s) x).
  { intros U. apply (N v). exists x, (p ++ WithOf n :: s), p. split; auto.
    econstructor; [|exact V]. simpl. apply in_app_iff. right. now left. }
  destruct (bound_skip p (WithOf n) s x) as [B1 B2].
  - intros B. destruct (bound_split _ _ _ B) as (? & ? & ? & _ & E & _ & D). injection E as <- <-. exact D.
  - split; [contradiction|exact B2].
Qed.

(** ** a test for distinct identities *)
Fixpoint visits (k : nat) (s : scope) (n : node) : list (scope * node) :=
  match k with
  | 0 => []
  | S k => (s, n) :: flat_map (fun p => visits k (fst p) (snd p)) (enters s n)
  end.
Lemma visits_all k : forall s n s' m, vsize n < k -> visit s n s' m -> In (s', m) (visits k s n).
Proof.
  induction k as [|k IH]; intros s n s' m H V; [lia|]. simpl. inversion V; subst; [now left|right].
  match goal with I : In _ (enters _ _) |- _ => pose proof (enters_size _ _ _ _ I) end.
  apply in_flat_map. exists (s1, n1). split; auto. apply IH; auto. simpl. lia.
Qed.
Fixpoint distinct (l : list nat) : bool :=
  match l with [] => true | x :: l => negb (existsb (Nat.eqb x) l) && distinct l end.
Lemma distinct_inj {A} (f : A -> nat) l : distinct (map f l) = true -> forall x y, In x l -> In y l -> f x = f y -> x = y.
Proof.
  induction l as [|z l IH]; simpl; intros H x y Ix Iy E; [contradiction|]. apply andb_prop in H as [H1 H2].
  assert (N : forall q, In q l -> f q <> f z).
  { intros q I Q. rewrite Bool.negb_true_iff in H1. assert (existsb (Nat.eqb (f z)) (map f l) = true); [|congruence].
    apply existsb_exists. exists (f q). split; [now apply in_map|]. apply Nat.eqb_eq. auto. }
  destruct Ix as [<-|Ix], Iy as [<-|Iy]; auto.
  - symmetry in E. now elim (N _ Iy).
  - now elim (N _ Ix).
Qed.
Lemma coherent_test primops root k : Nat.ltb (vsize root) k = true ->
  distinct (map (fun p => nid (snd p)) (visits k (prelude primops) root)) = true -> coherent primops root.
Proof.
  intros K H s1 n1 s2 n2 V1 V2 E. apply Nat.ltb_lt in K.
  apply (visits_all k) in V1; auto. apply (visits_all k) in V2; auto.
  pose proof (distinct_inj _ _ H _ _ V1 V2 E) as Q. injection Q as -> ->. auto.
Qed.

(** ** reports of unused definitions *)
Lemma cur_eqb_place x y : cur_eqb x y = true -> x = y.
Proof.
  unfold cur_eqb. intros H. apply andb_prop in H as [H H3]. apply andb_prop in H as [H1 H2]. apply Nat.eqb_eq in H1, H2, H3.
  destruct x, y; simpl in *; congruence.
Qed.
Lemma unused_report_kind src k : unused_report src = Some k <-> unusedKind src = Ok k.
Proof. destruct src; simpl; split; congruence. Qed.
Lemma unusedDiag_facts who x nd src k : unused_report src = Some k ->
  let dg := unusedDiag who x nd src k in
  d_kind dg = k /\ d_range dg = nrange nd /\ d_args dg = [x] /\ d_tags dg = [Faded] /\
  forall fx, In fx (d_fixes dg) -> exists q, In q (written who) /\ begins_with q nd /\ f_edits fx = [TEdit (nrange q) []].
Proof.
  intros K dg. unfold dg, unusedDiag.
  assert (E : forall d0, d0 = d_tag Faded (d_arg x (diag0 k (nrange nd))) ->
    d_kind d0 = k /\ d_range d0 = nrange nd /\ d_args d0 = [x] /\ d_tags d0 = [Faded] /\ d_fixes d0 = []) by (intros d0 ->; auto).
  destruct src; try (repeat (split; [reflexivity|]); intros fx []; fail).
  destruct (bindingAt (nrange nd) (letBindings who)) as [q|] eqn:B; repeat (split; [reflexivity|]); [|intros fx []].
  intros fx [<-|[]]. exists q. unfold bindingAt in B. apply find_some in B as [I Q].
  split; [exact I|]. split; [|reflexivity]. destruct q; try discriminate. destruct q; try discriminate. destruct names; [discriminate|].
  apply andb_prop in Q as [Q1 Q2]. apply cur_eqb_place in Q1, Q2. unfold begins_with.
  do 9 eexists. split; [reflexivity|]. unfold nl, nr in *. destruct (nrange nd), (nrange n). simpl in *. congruence.
Qed.

Lemma bfind_keys {A} x (l : list (bytes * A)) : bfind x l = None <-> ~ In x (map fst l).
Proof.
  induction l as [|[y v] l IH]; simpl; [tauto|]. destruct (bytes_eqb x y) eqn:E.
  - apply bytes_eqb_eq in E. subst. split; [discriminate|intros Q; elim Q; now left].
  - rewrite IH. split; [intros Q [Z|Z]; [|contradiction]|tauto].
    subst. rewrite (proj2 (bytes_eqb_eq x x) eq_refl) in E. discriminate.
Qed.
Lemma lookup_notfound primops x : lookupGlobalPrimOpInfo primops x = NotFound <->
  ~ In x (map fst primops) /\ ~ In (b "__" ++ x) (map fst primops).
Proof.
  unfold lookupGlobalPrimOpInfo. rewrite <- !bfind_keys.
  destruct (bfind x primops); [split; [discriminate|intros [Q _]; discriminate]|].
  destruct (bfind (b "__" ++ x) primops); split; auto; try discriminate. intros [_ Q]; discriminate.
Qed.
Lemma lookup_prefixed primops x : lookupGlobalPrimOpInfo primops x = PrefixedFound <->
  ~ In x (map fst primops) /\ In (b "__" ++ x) (map fst primops).
Proof.
  unfold lookupGlobalPrimOpInfo. pose proof (bfind_keys (b "__" ++ x) primops) as E. rewrite <- bfind_keys.
  destruct (bfind x primops); [split; [discriminate|intros [Q _]; discriminate]|].
  destruct (bfind (b "__" ++ x) primops) as [v|] eqn:F.
  - split; auto. intros _. split; auto. apply bfind_in in F. apply in_map_iff. exists (b "__" ++ x, v). auto.
  - split; [discriminate|]. intros [_ Q]. now apply E in Q.
Qed.
Lemma toDef_ok primops root s n d : vla primops root = Ok s -> toDef s n = Some d ->
  exists y nd, nth_error (v_defs s) d = Some y /\ df_syn y = Some nd /\ nid nd = nid n.
Proof.
  intros H Q. apply vla_start in H as (s1 & e & _ & _ & Et & _ & _ & _ & _ & _ & P & _).
  destruct (po_todef _ _ _ _ _ _ P _ _ Q) as [Z|(_ & y & nd & Y)]; [rewrite Et in Z; discriminate|]. exists y, nd. exact Y.
Qed.
