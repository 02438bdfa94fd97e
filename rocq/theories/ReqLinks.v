(** Lemmas for the theorems of ReqProps about hints, links and addresses. *)
From Verif Require Import Base Diag LexModel AstModel PSupModel SemaModel ParseModel ParseSpec NavModel NavSpec NavProofs VlaModel VlaSpec VlaPost VlaBase VlaThms
  TextModel FeatModel FeatSpec CompModel CompProofs RefModel RefSpec RefProofs IdSpec IdTree IdProofs ReqModel ReqSpec.

(** ** walking a tree *)
Lemma fold_ok {A} (g : node -> res (list A)) chs : (forall c, In (Some c) chs -> exists l, g c = Ok l) ->
  forall l0, exists l, fold_left (fun r ch => let* l := r in match ch with Some c => let* l' := g c in Ok (l ++ l') | None => Ok l end) chs (Ok l0) = Ok l /\
    forall h, In h l <-> In h l0 \/ exists c l', In (Some c) chs /\ g c = Ok l' /\ In h l'.
Proof.
  induction chs as [|ch chs IH]; intros H l0; cbn [fold_left].
  - exists l0. split; auto. intros h. split; auto. intros [I|(c & l' & [] & _)]; auto.
  - assert (H' : forall c, In (Some c) chs -> exists l, g c = Ok l) by (intros c I; apply H; now right).
    destruct ch as [c|]; cbn [bind].
    + destruct (H c (or_introl eq_refl)) as [lc E]. rewrite E. cbn [bind]. destruct (IH H' (l0 ++ lc)) as (l & El & M). exists l. split; auto.
      intros h. rewrite M, in_app_iff. split.
      * intros [[I|I]|(c' & l' & I & E' & I')]; auto; right; [exists c, lc; split; [now left|auto]|exists c', l'; split; [now right|auto]].
      * intros [I|(c' & l' & [Q|I] & E' & I')]; auto; [|right; eauto]. injection Q as <-. rewrite E in E'. injection E' as <-. auto.
    + destruct (IH H' l0) as (l & El & M). exists l. split; auto. intros h. rewrite M. split.
      * intros [I|(c' & l' & I & R)]; auto. right. exists c', l'. split; [now right|auto].
      * intros [I|(c' & l' & [Q|I] & R)]; auto; [discriminate|right; eauto].
Qed.

(** ** hints *)
Section Hints.
Variables (src : bytes) (root : node) (ds : list diag) (primops : list (bytes * bool)) (s : vst) (m : pmap).
Hypothesis HP : parse src = Ok (Some root, ds).
Hypothesis HV : vla primops root = Ok s.
Hypothesis HM : parents root = Ok m.
Lemma chain_last n l : chain root n l -> exists l0, l = l0 ++ [root].
Proof. induction 1 as [|n p l _ _ [l0 ->]]; [exists []; reflexivity|exists (n :: l0); reflexivity]. Qed.
Lemma upEnv_total n : node_of root n -> exists e, upEnv s m n = Ok (Some e).
Proof.
  intros N. destruct (upEnvLoop_ok root m s (parse_identified _ _ _ HP) HM (S (List.length m)) n []) as (l & Ch & L); simpl; auto; [constructor|intros x []|lia|].
  destruct (env_at _ _ _ _ _ HV (parse_coherent _ _ _ primops HP) (visit_here _ _)) as (e0 & E0 & _).
  destruct (chain_last _ _ Ch) as [l0 ->].
  assert (G : exists pre p post e, l0 ++ [root] = pre ++ p :: post /\ (forall q, In q pre -> envOf s q = None) /\ envOf s p = Some e).
  { clear - E0. induction l0 as [|q l0 IH].
    - exists [], root, [], e0. split; auto. split; [intros q []|exact E0].
    - destruct (envOf s q) as [e|] eqn:Eq.
      + exists [], q, (l0 ++ [root]), e. split; auto. split; [intros z []|exact Eq].
      + destruct IH as (pre & p & post & e & E & F & Ep). exists (q :: pre), p, post, e. split; [simpl; now rewrite E|].
        split; [intros z [<-|I]; auto|exact Ep]. }
  destruct G as (pre & p & post & e & E & F & Ep). exists e. exact (L _ _ _ _ E F Ep).
Qed.
Lemma frame_pkgs l f : lrep s l f -> isPkgsFrame f = true ->
  exists i r kw semi we e, l = WithOf (NWith i r kw semi (Some we) e) /\ is_var we (b "pkgs").
Proof.
  intros L T. unfold isPkgsFrame in T. destruct (fr_syn f) as [w|] eqn:Sy; [|discriminate].
  assert (X : exists i r kw semi we e, w = NWith i r kw semi (Some we) e /\ is_var we (b "pkgs")).
  { destruct w; try discriminate. match type of T with match ?o with _ => _ end = _ => destruct o as [we|]; [|discriminate] end.
    apply andb_prop in T as [T1 T2]. apply internal_nodekind_dec_bl in T1. apply VlaPost.bytes_eqb_eq in T2. do 6 eexists. split; [reflexivity|split; auto]. }
  destruct X as (i & r & kw & semi & we & e & -> & P). exists i, r, kw, semi, we, e. split; auto.
  destruct l as [xs|who names|w]; cbn [lrep] in L.
  - destruct L as [Z _]. congruence.
  - destruct L as (Z & K & _). rewrite Z in Sy. injection Sy as ->. now elim K.
  - destruct L as (-> & _). cbn in Sy. injection Sy as ->. reflexivity.
Qed.
Lemma rep_pkgs sc e : rep s sc e -> (exists f, In f e /\ isPkgsFrame f = true) <-> under_pkgs sc.
Proof.
  intros R. unfold under_pkgs. split.
  - intros (f & I & T). induction R as [|l f' sc' e' L R IH]; [destruct I|]. destruct I as [->|I].
    + destruct (frame_pkgs _ _ L T) as (i & r & kw & semi & we & e & -> & P). exists i, r, kw, semi, we, e. split; auto. now left.
    + destruct (IH I) as (i & r & kw & semi & we & e & J & P). exists i, r, kw, semi, we, e. split; auto.
      unfold withs in *. cbn [flat_map]. apply in_app_iff. now right.
  - intros (i & r & kw & semi & we & e0 & J & P). induction R as [|l f' sc' e' L R IH]; [destruct J|].
    unfold withs in J. cbn [flat_map] in J. apply in_app_iff in J as [J|J].
    + destruct l as [xs|who names|w]; try contradiction. destruct J as [->|[]]. destruct L as (-> & _). eexists. split; [now left|].
      cbn. destruct P as [K N]. rewrite K, N. reflexivity.
    + destruct (IH J) as (f & I & T). exists f. split; auto. now right.
Qed.
Lemma have_ok sc v : visit (prelude primops) root sc v -> exists r, havePackageScope s m v = Ok r /\ (r = true <-> under_pkgs sc).
Proof.
  intros V. destruct (env_at _ _ _ _ _ HV (parse_coherent _ _ _ primops HP) V) as (e & E & R).
  unfold havePackageScope. rewrite (upEnv_at _ m _ _ E). cbn [bind]. eexists. split; [reflexivity|].
  rewrite existsb_exists. now apply rep_pkgs.
Qed.
(** what one node adds *)
Definition within_limit (limit : option prange) (n : node) : Prop := forall r, limit = Some r -> contains r (prange_of (nrange n)).
Lemma hintOf_ok ask limit n : node_of root n -> exists l, hintOf s m (Some ask) limit n = Ok l /\
  forall h, In h l <-> exists ver, kind_of n = NK_ExprVar /\ havePackageScope s m n = Ok true /\ within_limit limit n /\ ask (varName n) = Some ver /\
    h = Hint (rcur (nrange n)) (b ": " ++ ver) (nrange n).
Proof.
  intros N. unfold hintOf. destruct (nodekind_beq (kind_of n) NK_ExprVar) eqn:K.
  2:{ exists []. split; auto. intros h. split; [intros []|]. intros (ver & Z & _). rewrite Z in K. discriminate. }
  apply internal_nodekind_dec_bl in K. destruct (upEnv_total n N) as [e E].
  assert (X : exists r, havePackageScope s m n = Ok r) by (unfold havePackageScope; rewrite E; cbn [bind]; eauto).
  destruct X as [have Hh]. rewrite Hh. cbn [bind].
  assert (W : match limit with Some r => pcontains r (prange_of (nrange n)) | None => true end = true <-> within_limit limit n).
  { unfold within_limit. destruct limit as [r|]; [rewrite pcontains_contains; split; [now intros C r0 [= <-]|auto]|split; [discriminate|auto]]. }
  destruct (have && _) eqn:T.
  - apply andb_prop in T as [-> T]. apply W in T. destruct (ask (varName n)) as [ver|].
    + eexists. split; [reflexivity|]. intros h. split; [intros [<-|[]]; exists ver; auto|]. intros (ver' & _ & _ & _ & [= <-] & ->). now left.
    + exists []. split; auto. intros h. split; [intros []|]. intros (ver' & _ & _ & _ & Z & _). discriminate.
  - exists []. split; auto. intros h. split; [intros []|]. intros (ver & _ & Z & L & _). injection Z as ->. apply W in L. rewrite L in T. discriminate.
Qed.
Lemma hints_ok ask limit k : forall n, node_of root n -> nsize n <= k -> exists l, inlayHints s m k (Some ask) limit n = Ok l /\
  forall h, In h l <-> exists v ver, node_of n v /\ kind_of v = NK_ExprVar /\ havePackageScope s m v = Ok true /\ within_limit limit v /\
    ask (varName v) = Some ver /\ h = Hint (rcur (nrange v)) (b ": " ++ ver) (nrange v).
Proof.
  induction k as [|k IH]; intros n N L; [destruct n; simpl in L; lia|]. cbn [inlayHints].
  destruct (hintOf_ok ask limit n N) as (l0 & E0 & M0). rewrite E0.
  assert (D : forall c, In (Some c) (children n) -> node_of root c /\ nsize c <= k).
  { intros c I. split; [eapply node_of_trans; [exact N|]; eapply node_child; [apply present_in; exact I|constructor]|]. apply child_size in I. lia. }
  destruct (fold_ok (inlayHints s m k (Some ask) limit) (children n)) with (l0 := l0) as (l & E & M).
  { intros c I. destruct (D c I) as [Nc Lc]. destruct (IH c Nc Lc) as (lc & Ec & _). eauto. }
  exists l. split; [exact E|]. intros h. rewrite M. split.
  - intros [I|(c & l' & I & Ec & Ih)].
    + apply M0 in I as (ver & K & H). exists n, ver. split; [constructor|auto].
    + destruct (D c I) as [Nc Lc]. destruct (IH c Nc Lc) as (lc & Ec' & Mc). rewrite Ec in Ec'. injection Ec' as <-.
      apply Mc in Ih as (v & ver & Nv & H). exists v, ver. split; auto. eapply node_child; eauto. now apply present_in.
  - intros (v & ver & Nv & H). inversion Nv as [|? c ? Ic Nc]; subst.
    + left. apply M0. eauto.
    + right. apply present_in in Ic. destruct (D c Ic) as [Nrc Lc]. destruct (IH c Nrc Lc) as (lc & Ec & Mc).
      exists c, lc. split; auto. split; auto. apply Mc. eauto.
Qed.
End Hints.

(** ** links *)
Lemma links_ok fs file k : forall n, nsize n <= k -> exists l, documentLinks k fs file n = Ok l /\
  forall r t, In (r, t) l <-> exists p x, open_node n p /\ literal_path p r x /\ resolveExprPath fs file x = Some t.
Proof.
  induction k as [|k IH]; intros n L; [destruct n; simpl in L; lia|].
  destruct (nodekind_beq (kind_of n) NK_ExprPath) eqn:K.
  - apply internal_nodekind_dec_bl in K. destruct n; try discriminate. cbn [documentLinks]. eexists. split; [reflexivity|].
    intros r0 t. split.
    + destruct (parts_literal _) as [x|] eqn:Lt; [|intros []]. destruct (resolveExprPath fs file x) as [t'|] eqn:R; [|intros []].
      intros [[= <- <-]|[]]. eexists. exists x. split; [constructor|]. split; [do 2 eexists; split; eauto|auto].
    + intros (p & x & O & (i & parts & -> & Lt) & R). inversion O as [|? ? ? Z]; subst; [|now elim Z]. rewrite Lt, R. now left.
  - assert (E : documentLinks (S k) fs file n = fold_left (fun r ch => let* l := r in
              match ch with Some c => let* l' := documentLinks k fs file c in Ok (l ++ l') | None => Ok l end) (children n) (Ok [])).
    { destruct n; try reflexivity. discriminate K. }
    rewrite E. assert (D : forall c, In (Some c) (children n) -> nsize c <= k) by (intros c I; apply child_size in I; lia).
    destruct (fold_ok (documentLinks k fs file) (children n)) with (l0 := @nil (range * bytes)) as (l & El & M).
    { intros c I. destruct (IH c (D c I)) as (lc & Ec & _). eauto. }
    exists l. split; [exact El|]. intros r t. rewrite M. split.
    + intros [[]|(c & l' & I & Ec & It)]. destruct (IH c (D c I)) as (lc & Ec' & Mc). rewrite Ec in Ec'. injection Ec' as <-.
      apply Mc in It as (p & x & O & H). exists p, x. split; auto. apply open_child with c; [intros Z; rewrite Z in K; discriminate|now apply present_in|exact O].
    + intros (p & x & O & Lp & R). right. inversion O as [|? c ? Nk Ic Oc]; subst.
      * exfalso. destruct Lp as (i & parts & -> & _). discriminate K.
      * apply present_in in Ic. destruct (IH c (D c Ic)) as (lc & Ec & Mc). exists c, lc. split; auto. split; auto. apply Mc. eauto.
Qed.
Lemma dropWhile_app f a c : Forall (fun x => f x = true) a -> dropWhile f (a ++ c) = dropWhile f c.
Proof. induction 1 as [|x a H _ IH]; cbn [app dropWhile]; [reflexivity|]. now rewrite H. Qed.
Lemma rev_repeat {A} (x : A) k : rev (repeat x k) = repeat x k.
Proof. induction k as [|k IH]; [reflexivity|]. cbn [repeat rev]. rewrite IH. clear IH. induction k as [|k IH]; [reflexivity|]. cbn [repeat app]. now rewrite IH. Qed.
Lemma slash_iff c : slash c = true <-> c = "/"%char.
Proof. unfold slash. apply Ascii.eqb_eq. Qed.
Lemma parent_dir file dir : directory file dir -> parent_path file = dir /\ dir <> [].
Proof.
  intros (top & k & name & -> & Ns & Ne & ->). unfold parent_path. rewrite !rev_app_distr, rev_repeat, <- app_assoc, dropWhile_app.
  2:{ apply Forall_forall. intros c I. apply in_rev in I. destruct (slash c) eqn:E; [|reflexivity]. apply slash_iff in E. subst. contradiction. }
  cbn [repeat app]. set (u := repeat "/"%char k ++ rev top).
  change (dropWhile (fun c => negb (slash c)) ("/"%char :: u)) with ("/"%char :: u). cbv iota.
  change (dropWhile slash ("/"%char :: u)) with (dropWhile slash u). unfold u.
  rewrite dropWhile_app by (apply Forall_forall; intros c I; apply repeat_spec in I; now subst).
  destruct (rev top) as [|c r] eqn:Er.
  - assert (top = []) as -> by (rewrite <- (rev_involutive top), Er; reflexivity). split; [reflexivity|discriminate].
  - assert (E : top = rev r ++ [c]) by (rewrite <- (rev_involutive top), Er; reflexivity).
    cbn [dropWhile]. destruct (slash c) eqn:Sc.
    + exfalso. apply slash_iff in Sc. subst c. apply Ne. exists (rev r). exact E.
    + cbn [rev]. rewrite <- E. destruct top; [destruct (rev r); discriminate|]. split; [reflexivity|discriminate].
Qed.
Lemma slashes l : exists k r, l = repeat "/"%char k ++ r /\ dropWhile slash l = r /\ (forall c r', r = c :: r' -> c <> "/"%char).
Proof.
  induction l as [|c l (k & r & E & D & H)]; [exists 0, []; split; auto; split; auto; discriminate|]. cbn [dropWhile].
  destruct (slash c) eqn:S.
  - apply slash_iff in S. subst c. exists (S k), r. split; [simpl; now f_equal|auto].
  - exists 0, (c :: l). split; auto. split; auto. intros c1 r1 E1 ->. injection E1 as E1 _. rewrite E1 in S. discriminate.
Qed.
Lemma names_ l : exists n r, l = n ++ r /\ no_slash n /\ dropWhile (fun c => negb (slash c)) l = r /\ (r = [] \/ exists r', r = "/"%char :: r').
Proof.
  induction l as [|c l (n & r & E & N & D & H)]; [exists [], []; split; [reflexivity|]; split; [intros []|]; split; [reflexivity|now left]|]. cbn [dropWhile]. destruct (slash c) eqn:S.
  - apply slash_iff in S. subst c. exists [], ("/"%char :: l). split; auto. split; [intros []|]. split; [reflexivity|]. right. eauto.
  - cbn [negb]. exists (c :: n), r. split; [simpl; now f_equal|]. split; [|auto]. intros [Z|Z]; [rewrite Z in S; discriminate|contradiction].
Qed.
Lemma parent_some file : parent_path file <> [] -> directory file (parent_path file).
Proof.
  unfold parent_path. destruct (names_ (rev file)) as (n & r & E & N & D & H). rewrite D.
  destruct H as [->|(r' & ->)]; [congruence|]. intros _. destruct (slashes ("/"%char :: r')) as (k & q & E2 & D2 & H2). rewrite D2.
  assert (Ek : exists k', k = S k').
  { destruct k; eauto. exfalso. simpl in E2. apply (H2 "/"%char r'); auto. }
  destruct Ek as [k' ->].
  exists (rev q), k', (rev n). split.
  - rewrite <- (rev_involutive file), E, E2, !rev_app_distr, rev_repeat, app_assoc. reflexivity.
  - split; [unfold no_slash; intros I; apply in_rev in I; contradiction|]. split.
    + intros [y Ey]. apply (f_equal (@rev _)) in Ey. rewrite rev_involutive, rev_app_distr in Ey. simpl in Ey. now apply (H2 "/"%char (rev y)).
    + destruct q as [|c q]; [reflexivity|]. destruct (rev (c :: q)) eqn:Z; [|reflexivity]. apply (f_equal (@rev _)) in Z. rewrite rev_involutive in Z. discriminate.
Qed.
Lemma ends_rev p : ends_in_slash p <-> exists r, rev p = "/"%char :: r.
Proof.
  split.
  - intros [y ->]. exists (rev y). now rewrite rev_app_distr.
  - intros [r E]. exists (rev r). rewrite <- (rev_involutive p), E. reflexivity.
Qed.
Lemma append_joined d x p : x <> [] -> joined d x p <-> path_append d x = p.
Proof.
  intros Nx. unfold joined, path_append. destruct x as [|c x]; [congruence|].
  assert (St : starts_with (b "/") (c :: x) = slash c) by (change (starts_with (b "/") (c :: x)) with (Ascii.eqb "/" c && true); rewrite Bool.andb_true_r; apply Ascii.eqb_sym).
  rewrite St. destruct (rev d) as [|l r] eqn:Er.
  { assert (d = []) as -> by (rewrite <- (rev_involutive d), Er; reflexivity). destruct (slash c); [split; congruence|]. rewrite ends_rev. split.
    - intros [[_ ->]|[[(r & Z) _]|[Z _]]]; [reflexivity|discriminate|congruence].
    - intros <-. now left. }
  assert (Nd : d <> []) by (intros ->; discriminate).
  destruct (slash c) eqn:Sc; [split; congruence|]. rewrite ends_rev, Er. destruct (slash l) eqn:Sl.
  - apply slash_iff in Sl. subst l. split; [intros [[Z _]|[[_ ->]|(_ & Z & _)]]; [congruence|reflexivity|elim Z; eauto]|intros <-; right; left; split; eauto].
  - split; [intros [[Z _]|[[[r0 Z] _]|(_ & _ & ->)]]; [congruence|injection Z as -> _; discriminate|reflexivity]|]. intros <-. right. right. split; auto. split; [|reflexivity].
    intros [r0 Z]. injection Z as -> _. discriminate.
Qed.
Lemma resolve_ok fs file x t : resolveExprPath fs file x = Some t <-> leads_to fs file x t.
Proof.
  unfold resolveExprPath, leads_to. destruct x as [|c x]; [cbn; split; [discriminate|intros [Z _]; congruence]|]. cbn [orb].
  set (y := c :: x). assert (Ny : y <> []) by discriminate. clearbody y. clear c x.
  destruct (N.ltb_spec 4096 (N.of_nat (List.length y))) as [L|L].
  { split; [discriminate|intros (_ & Z & _); lia]. }
  assert (P : forall dir, directory file dir <-> parent_path file = dir /\ dir <> []).
  { intros dir. split; [apply parent_dir|]. intros [<- N]. now apply parent_some. }
  split.
  - intros H. destruct (parent_path file) as [|c d] eqn:Ep; [discriminate|]. set (dir := c :: d) in *.
    destruct (fs_canonical fs dir) as [real|] eqn:Ec; [|discriminate]. destruct (fs_weakly fs (path_append real y)) as [p'|] eqn:Ew; [|discriminate].
    split; [exact Ny|]. split; [exact L|]. exists dir, real, (path_append real y), p'. split; [apply P; split; [reflexivity|discriminate]|].
    split; [exact Ec|]. split; [now apply append_joined|]. split; [exact Ew|].
    destruct (fs_status fs p') as [[|]|] eqn:Es; [|injection H as <-; now left|discriminate].
    right. split; [reflexivity|]. cbv zeta in H. remember (path_append p' (b "default.nix")) as q eqn:Eq. destruct (fs_status fs q) eqn:Et; [|discriminate].
    assert (q = t) by congruence. subst t.
    split; [apply append_joined; [discriminate|now rewrite Eq]|congruence].
  - intros (_ & _ & dir & real & p & p' & Hd & Ec & J & Ew & H). apply P in Hd as [Ep Nd]. apply append_joined in J; [|exact Ny].
    rewrite Ep. destruct dir as [|c d]; [congruence|]. rewrite Ec, J, Ew. destruct H as [[-> ->]|(-> & Jt & Et)]; [reflexivity|].
    apply append_joined in Jt; [|discriminate]. rewrite Jt. destruct (fs_status fs t); [reflexivity|congruence].
Qed.

(** ** addresses *)
Lemma cut_names (l1 : list bytes) : forall l2, Forall no_slash l1 -> Forall no_slash l2 ->
  List.concat (map (fun x => b "/" ++ x) l1) = List.concat (map (fun x => b "/" ++ x) l2) -> l1 = l2.
Proof.
  assert (C : forall (x y : bytes) u v, no_slash x -> no_slash y -> x ++ u = y ++ v -> (u = [] \/ exists u', u = "/"%char :: u') ->
    (v = [] \/ exists v', v = "/"%char :: v') -> x = y /\ u = v).
  { induction x as [|c x IH]; intros y u v Nx Ny E U V.
    - destruct y as [|d y]; [auto|]. exfalso. simpl in E. destruct U as [->|(u' & ->)]; [discriminate|]. injection E as <- _. apply Ny. now left.
    - destruct y as [|d y].
      + exfalso. simpl in E. destruct V as [->|(v' & ->)]; [discriminate|]. injection E as -> _. apply Nx. now left.
      + simpl in E. injection E as <- E. destruct (IH y u v) as [-> ->]; auto; intros I; [apply Nx|apply Ny]; now right. }
  assert (S : forall l, List.concat (map (fun x => b "/" ++ x) l) = [] \/ exists r, List.concat (map (fun x => b "/" ++ x) l) = "/"%char :: r).
  { intros [|x l]; [now left|right; simpl; eauto]. }
  induction l1 as [|x l1 IH]; intros [|y l2] F1 F2 E; [reflexivity|discriminate|discriminate|].
  inversion F1; inversion F2; subst. simpl in E. injection E as E. destruct (C _ _ _ _ H1 H5 E (S l1) (S l2)) as [-> E']. f_equal. now apply IH.
Qed.
Lemma noogle_inj l1 l2 : Forall no_slash l1 -> Forall no_slash l2 -> buildNoogleUrl l1 = buildNoogleUrl l2 -> l1 = l2.
Proof. intros F1 F2 E. unfold buildNoogleUrl in E. apply app_inv_head in E. now apply cut_names. Qed.
Lemma static_reads names xs : staticNames names = Some xs <-> reads_names names xs.
Proof.
  unfold reads_names. revert xs. induction names as [|n names IH]; intros xs; cbn [staticNames].
  - split; [intros [= <-]; constructor|inversion 1; reflexivity].
  - split.
    + destruct (staticName n) as [x|] eqn:E; [|discriminate]. destruct (staticNames names) as [l|]; [|discriminate]. intros [= <-]. constructor; auto. now apply IH.
    + inversion 1 as [|? x ? l E F]; subst. rewrite E. apply IH in F. now rewrite F.
Qed.
