(** Lemmas for the theorems of ReqProps. *)
From Verif Require Import Base Diag LexModel AstModel PSupModel SemaModel ParseModel ParseSpec NavModel NavSpec NavProofs VlaModel VlaSpec VlaPost VlaBase VlaThms
  ActModel CompModel CompProofs RefModel RefSpec RefProofs RefWith IdSpec IdTree IdProofs ParseTree ReqModel ReqSpec.

(** ** names in nixpkgs *)
Lemma bound_declares sc x l t : bound sc x (l :: t) -> exists k, In k sc /\ declares k x.
Proof.
  remember (l :: t) as lt. intros B. clear Heqlt. induction B as [k sc x D|k sc x t' D B IH]; [exists k; split; [now left|exact D]|].
  destruct IH as (k' & I & D'). exists k'. split; [now right|exact D'].
Qed.
Section Selectors.
Variables (src : bytes) (root : node) (ds : list diag) (primops : list (bytes * bool)) (s : vst) (m : pmap).
Hypothesis HP : parse src = Ok (Some root, ds).
Hypothesis HV : vla primops root = Ok s.
Hypothesis HM : parents root = Ok m.

Lemma sel_with_def sc v x d : occurs_at primops root sc v x -> VlaModel.query s v = Some (FromWith d) ->
  unbound sc x /\ exists ws w y kw, withs sc = ws ++ [w] /\ nth_error (v_defs s) d = Some y /\ df_syn y = Some kw /\
    pquery m kw = Some w /\ (exists t, visit (prelude primops) root t w /\ withs t = []) /\ exists i r semi we e, w = NWith i r kw semi we e.
Proof.
  intros O Q. pose proof (parse_coherent _ _ _ primops HP) as C.
  destruct (query_res _ _ _ _ _ _ HV C O) as (r0 & Q0 & R). rewrite Q in Q0. injection Q0 as <-. simpl in R.
  destruct R as (Ub & ws & w & Ws & F). split; auto.
  destruct (with_opener _ _ _ _ w (proj1 O)) as (pre & t & Es & Vw & Kw); [rewrite Ws; apply in_app_iff; right; now left|].
  destruct (nth_error (v_defs s) d) as [y|] eqn:Y.
  2:{ exfalso. pose proof HV as H. apply vla_start in H as (s1 & en & _ & _ & _ & _ & _ & _ & _ & _ & _ & G).
      destruct (proj1 G _ _ F) as (y' & Y' & _). unfold defn in Y'. congruence. }
  assert (B : df_src y = DS_With) by (eapply with_source; eauto).
  destruct (with_uses _ _ _ _ _ HV C Y B) as (sc' & i & r & kw & semi & we & e & V & Sy & Fw & U).
  assert (Ew : nid w = i).
  { pose proof HV as H. apply vla_start in H as (s1 & en & _ & _ & _ & _ & Er & _ & _ & _ & P & G). eapply (proj2 G); eauto. }
  destruct (C _ _ _ _ Vw V Ew) as [-> ->].
  exists ws, (NWith i r kw semi we e), y, kw. split; auto. split; auto. split; auto. split.
  - pose proof (doc_with _ _ _ HP _ _ _ _ _ _ _ _ V) as N.
    assert (I : In kw (present (children (NWith i r kw semi we e)))) by (left; reflexivity).
    assert (Nk : node_of root kw) by (eapply node_of_trans; [exact N|]; eapply node_child; [exact I|constructor]).
    destruct (parent_some _ _ _ HM Nk) as [q Pq]. rewrite Pq. f_equal.
    destruct (parent_ok _ _ _ _ (parse_identified _ _ _ HP) HM Nk Pq) as [[E _]|(_ & Nq & Iq)].
    + subst kw. exfalso. exact (root_no_child root _ N I).
    + destruct (parse_one_parent _ _ _ _ _ _ HP Nq N Iq I) as [E|[E|E]]; [exact E| |destruct E].
      exfalso. pose proof (doc_typed _ _ _ HP _ (node_within _ _ Nq)) as T.
      destruct q; try contradiction; cbn [let_keyword] in E;
        match type of E with match ?a with _ => _ end => destruct a as [a|]; [|contradiction] end; destruct E as [E _]; subst;
        cbn in T; unfold is_kind in T; intuition discriminate.
  - split; [|eauto 10]. exists sc'. split; [exact V|]. rewrite Es, withs_app in Ws. simpl in Ws.
    destruct (withs sc') as [|a l] eqn:Wt; [reflexivity|]. exfalso.
    assert (I : In (NWith i r kw semi we e) (withs sc')).
    { assert (Z : exists l0, a :: l = l0 ++ [NWith i r kw semi we e]).
      { destruct (exists_last (l := a :: l)) as (l0 & z & Ez); [discriminate|]. rewrite Ez in *. exists l0. f_equal.
        rewrite app_comm_cons, app_assoc in Ws. apply app_inj_tail in Ws as [_ ->]. reflexivity. }
      destruct Z as [l0 Z]. rewrite Wt, Z. apply in_app_iff. right. now left. }
    destruct (with_opener _ _ _ _ _ V I) as (p2 & t2 & E2 & V2 & _). destruct (C _ _ _ _ V V2 eq_refl) as [E3 _].
    rewrite E3 in E2. apply (f_equal (@List.length _)) in E2. rewrite app_length in E2. simpl in E2. lia.
Qed.

(** an answer that is right: a path if and only if it is meant *)
Definition right_ (sc : scope) (e : node) (a : may (list bytes)) : Prop :=
  exists r, a = Ok r /\ forall p, r = inr p <-> meant primops root sc e p.
Lemma is_var_dec x y : bytes_eqb x y = true \/ x <> y.
Proof. destruct (bytes_eqb x y) eqn:E; [now left|right]. intros ->. rewrite (proj2 (VlaPost.bytes_eqb_eq y y) eq_refl) in E. discriminate. Qed.
Lemma right_plain f sc v x : occurs_at primops root sc v x -> ~ (unbound sc x /\ withs sc <> []) ->
  right_ sc v (mkVarSelector s m (S f) v).
Proof.
  intros O Nw. pose proof (parse_coherent _ _ _ primops HP) as C.
  assert (E : mkVarSelector s m (S f) v = varSelector v).
  { destruct (query_res _ _ _ _ _ _ HV C O) as (r & Q & R). cbn [mkVarSelector]. rewrite Q. destruct r as [|d|d]; auto.
    exfalso. simpl in R. destruct R as (Ub & ws & w & Ws & _). apply Nw. split; auto. rewrite Ws. destruct ws; discriminate. }
  rewrite E. destruct O as [V [K N]]. unfold varSelector. rewrite N.
  assert (Inv : forall p, meant primops root sc v p -> (x = b "pkgs" /\ p = []) \/ (x = b "lib" /\ p = [b "lib"])).
  { intros p M. inversion M as [? ? [_ [_ N1]] _|? ? [_ [_ N1]] _|? ? x' ws0 ? ? ? ? ? ? ? ? w0 [_ [_ N1]] Ub0 Ws0|]; subst.
    - left. split; auto.
    - right. split; auto.
    - exfalso. apply Nw. split; auto. rewrite Ws0. destruct ws0; discriminate.
    - discriminate K. }
  destruct (bytes_eqb x (b "lib")) eqn:L; [|destruct (bytes_eqb x (b "pkgs")) eqn:Pk].
  - apply VlaPost.bytes_eqb_eq in L. subst x. exists (inr [b "lib"]). split; auto. intros p. split.
    + intros [= <-]. apply meant_lib; [split; auto; split; auto|]; now rewrite L in *.
    + intros M. destruct (Inv p M) as [[Z _]|[_ ->]]; auto. rewrite L in Z. discriminate.
  - apply VlaPost.bytes_eqb_eq in Pk. exists (inr []). split; auto. intros p. split.
    + intros [= <-]. apply meant_pkgs; [split; auto; split; auto; congruence|now rewrite Pk in *].
    + intros M. destruct (Inv p M) as [[_ ->]|[Z _]]; auto. rewrite Pk in Z. discriminate.
  - exists (inl NotAnIdiom). split; auto. intros p. split; [discriminate|]. intros M. exfalso.
    destruct (Inv p M) as [[-> _]|[-> _]].
    + rewrite (proj2 (VlaPost.bytes_eqb_eq _ _) eq_refl) in Pk. discriminate.
    + rewrite (proj2 (VlaPost.bytes_eqb_eq _ _) eq_refl) in L. discriminate.
Qed.
Lemma path_right names : forall base, exists r, pathSelector names base = Ok r /\
  forall p, r = inr p <-> exists xs, reads_names names xs /\ p = base ++ xs.
Proof.
  induction names as [|n names IH]; intros base; cbn [pathSelector].
  - exists (inr base). split; auto. intros p. split.
    + intros [= <-]. exists []. split; [constructor|now rewrite app_nil_r].
    + intros (xs & R & ->). inversion R; subst. now rewrite app_nil_r.
  - destruct (staticName n) as [x|] eqn:S.
    + destruct (IH (base ++ [x])) as (r & -> & R). exists r. split; auto. intros p. rewrite R. split.
      * intros (xs & F & ->). exists (x :: xs). split; [constructor; auto|]. now rewrite <- app_assoc.
      * intros (xs & F & ->). inversion F as [|? y ? xs' Hy F']; subst. rewrite S in Hy. injection Hy as <-. exists xs'. split; auto.
        now rewrite <- app_assoc.
    + eexists. split; [reflexivity|]. intros p. split; [discriminate|]. intros (xs & F & _). inversion F; subst. congruence.
Qed.
Lemma right_select f sc e : visit (prelude primops) root sc e ->
  (forall v x, occurs_at primops root sc v x -> right_ sc v (f v)) -> kind_of e = NK_ExprSelect -> right_ sc e (selSelector f e).
Proof.
  intros V H K. assert (X : exists i r v d q df o, e = NSelect i r v d q df o) by (destruct e; try discriminate K; eauto 10).
  destruct X as (i & r & v & d & q & df & o & ->).
  cbn [selSelector].
  assert (Inv : forall p, meant primops root sc (NSelect i r v d q df o) p -> kind_of v = NK_ExprVar /\ exists p0 xs,
     meant primops root sc v p0 /\ reads_names (match q with Some q => path_names q | None => [] end) xs /\ p = p0 ++ xs).
  { intros p M. inversion M as [? ? [_ [Z _]] _|? ? [_ [Z _]] _|? ? ? ? ? ? ? ? ? ? ? ? ? [_ [Z _]]|]; subst; try discriminate Z. eauto 6. }
  destruct (nodekind_beq (kind_of v) NK_ExprVar) eqn:Kv.
  - apply internal_nodekind_dec_bl in Kv.
    assert (O : occurs_at primops root sc v (varName v)).
    { split; [|split; auto]. eapply visit_trans; [exact V|]. eapply visit_in; [|apply visit_here]. left. reflexivity. }
    destruct (H v _ O) as (r0 & E0 & R0). unfold mbind. rewrite E0. destruct r0 as [t|base].
    + exists (inl t). split; auto. intros p. split; [discriminate|]. intros M. exfalso.
      destruct (Inv p M) as (_ & p0 & xs & M0 & _). apply R0 in M0. discriminate.
    + destruct q as [q|].
      * destruct (path_right (path_names q) base) as (r1 & E1 & R1). exists r1. split; [exact E1|]. intros p. rewrite R1. split.
        -- intros (xs & F & ->). apply meant_select; auto. now apply R0.
        -- intros M. destruct (Inv p M) as (_ & p0 & xs & M0 & F & ->). apply R0 in M0. injection M0 as <-. eauto.
      * exists (inr base). split; auto. intros p. split.
        -- intros [= <-]. rewrite <- (app_nil_r base). apply meant_select; auto; [now apply R0|constructor].
        -- intros M. destruct (Inv p M) as (_ & p0 & xs & M0 & F & ->). apply R0 in M0. injection M0 as <-. inversion F; subst.
           now rewrite app_nil_r.
  - exists (inl NotVariableSelect). split; auto. intros p. split; [discriminate|]. intros M. exfalso.
    destruct (Inv p M) as (Z & _). rewrite Z in Kv. discriminate.
Qed.
Lemma withs_dec sc x : (unbound sc x /\ withs sc <> []) \/ ~ (unbound sc x /\ withs sc <> []).
Proof.
  assert (D : unbound sc x \/ ~ unbound sc x).
  { clear. induction sc as [|l sc IH]; [left; intros l []|]. destruct (declares_dec l x) as [D|D].
    - right. intros U. apply (U l); [now left|exact D].
    - destruct IH as [U|U]; [left; intros k [<-|I]; auto|right; intros U'; apply U; intros k I; apply U'; now right]. }
  destruct D as [U|U]; [|right; tauto]. destruct (withs sc); [right; intros [_ Z]; now apply Z|left; split; auto; discriminate].
Qed.
Lemma right_var f sc v x : occurs_at primops root sc v x -> right_ sc v (mkVarSelector s m (S (S f)) v).
Proof.
  intros O. destruct (withs_dec sc x) as [[Ub Ne]|Nw]; [|now apply right_plain with x].
  pose proof (parse_coherent _ _ _ primops HP) as C.
  destruct (query_res _ _ _ _ _ _ HV C O) as (r0 & Q & R).
  destruct r0 as [|d|d]; [exfalso; destruct R; contradiction| |exfalso].
  2:{ simpl in R. destruct R as (l & t & B & _). destruct (bound_declares _ _ _ _ B) as (k & I & D). exact (Ub k I D). }
  destruct (sel_with_def _ _ _ _ O Q) as (_ & ws & w & y & kw & Ws & Y & Sy & Pk & (t & Vt & Wt) & (i & r & semi & we & e & ->)).
  remember (S f) as f1. cbn [mkVarSelector]. rewrite Q, Y, Sy, Pk. subst f1.
  assert (Inner : forall v x, occurs_at primops root t v x -> right_ t v (mkVarSelector s m (S f) v)).
  { intros v1 x1 O1. apply right_plain with x1; auto. intros [_ Z]. contradiction. }
  assert (Inv : forall p, meant primops root sc v p -> exists we' p0, we = Some we' /\ meant primops root t we' p0 /\ p = p0 ++ [x]).
  { intros p M. inversion M as [? ? O1 Nw|? ? O1 Nw|? ? x' ws0 ? ? ? ? we0 ? t0 p0 w0 O1 Ub0 Ws0 V0 M0|]; subst.
    - exfalso. apply Nw. replace (b "pkgs") with x by (destruct O as (_ & _ & <-), O1 as (_ & _ & <-); reflexivity). auto.
    - exfalso. apply Nw. replace (b "lib") with x by (destruct O as (_ & _ & <-), O1 as (_ & _ & <-); reflexivity). auto.
    - rewrite Ws in Ws0. apply app_inj_tail in Ws0 as [_ Ew]. unfold w0 in *. injection Ew as -> -> -> -> -> ->.
      destruct (C _ _ _ _ V0 Vt eq_refl) as [-> _]. exists we0, p0. split; auto. split; auto. f_equal. f_equal.
      destruct O as (_ & _ & <-), O1 as (_ & _ & <-). reflexivity.
    - destruct O as (_ & Z & _). discriminate Z. }
  assert (Vn : varName v = x) by (destruct O as (_ & _ & <-); reflexivity). rewrite Vn.
  destruct we as [we|].
  - assert (Ve : visit (prelude primops) root t we).
    { eapply visit_trans; [exact Vt|]. eapply visit_in; [|apply visit_here]. simpl. now left. }
    assert (G : forall a, right_ t we a -> right_ sc v (mbind a (fun p => Ok (inr (p ++ [x]))))).
    { intros a (r1 & -> & R1). destruct r1 as [z|p1]; simpl.
      - exists (inl z). split; auto. intros p. split; [discriminate|]. intros M. exfalso. destruct (Inv p M) as (we' & p0 & [= <-] & M0 & _).
        apply R1 in M0. discriminate.
      - eexists. split; [reflexivity|]. intros p. split.
        + intros [= <-]. eapply meant_with; eauto. now apply R1.
        + intros M. destruct (Inv p M) as (we' & p0 & [= <-] & M0 & ->). apply R1 in M0. now injection M0 as <-. }
    unfold withSelector. destruct (nodekind_beq (kind_of we) NK_ExprVar) eqn:K1.
    + apply internal_nodekind_dec_bl in K1. apply G. apply Inner with (varName we). split; [exact Ve|split; auto].
    + destruct (nodekind_beq (kind_of we) NK_ExprSelect) eqn:K2.
      * apply internal_nodekind_dec_bl in K2. apply G. now apply right_select.
      * apply (G (Ok (inl NotAnIdiom))). exists (inl NotAnIdiom). split; auto. intros p. split; [discriminate|]. intros M. exfalso.
        inversion M as [? ? [_ [Z _]] _|? ? [_ [Z _]] _|? ? ? ? ? ? ? ? ? ? ? ? ? [_ [Z _]]|]; subst; try (rewrite Z in K1; discriminate K1). discriminate K2.
  - exists (inl NotAnIdiom). split; auto. intros p. split; [discriminate|]. intros M. exfalso. destruct (Inv p M) as (? & ? & Z & _). discriminate.
Qed.
Lemma right_sel f sc e : visit (prelude primops) root sc e -> kind_of e = NK_ExprSelect -> right_ sc e (mkSelector s m (S (S f)) e).
Proof. intros V K. apply right_select; auto. intros v x O. now apply right_var with x. Qed.
End Selectors.
