(** For C68: the parsing functions, first part. *)
From Verif Require Import Base Diag LexModel LexSpec LexProofs AstModel PSupModel SemaModel ParseModel ParseSpec
  ParseInv GramSpec GramBase GramMono GramStep GramPost.

Section Fun.
Context {Qt : Quiet}.
Variable src : bytes.
Notation G := (gram_at false (located src)).
Variable rec : nt -> P (option node).
Hypothesis Mrec : forall q, mono (rec q).
Hypothesis Rec : forall q c, pre src q c -> cl (rec q) c (post src q c).
Notation J := (J src). Notation fl := (fl src).
Notation good_fun q m := (forall c, pre src q c -> cl m c (post0 src q c)).

Lemma f_paren : good_fun QParen (parseExprParen src rec).
Proof.
  start. unfold parseExprParen. repeat C. kbeq. repeat C.
  R Rec. intros e c2 H2. repeat C. destruct H2 as (i2 & F2 & G2 & L2). mg F2.
  repeat C. destruct (mayProducedBySimple _); repeat C; cbn [post post0]; fin g_paren.
Qed.

Lemma f_list : good_fun QList (parseExprList rec).
Proof.
  start. unfold parseExprList. repeat C.
  - R Rec. intros r c2 H2. destruct r as [n|]; [|destruct H2]. cbn in H2.
    destruct (H2 [] (tview t) (g_sels_nil _ _)) as (i2 & F2 & G2). mg F2. cbn [post post0].
    ext. eapply eq_gram; [exact G2|asc].
  - exact F0.
Qed.
Lemma f_listloop t acc : good_fun (QListLoop t acc) (parseExprListLoop src rec t acc).
Proof.
  start. unfold parseExprListLoop.
  assert (Fin : forall c1, fl c [] c1 -> cl (let! er := expect src tok_r_bracket in
    do! (match er with Some _ => consume | None => noteMatch (trange t) tok_l_bracket end) in
    let! r := toLast (lcur (trange t)) in
    let! i := fresh in
    ok_ (NList i r acc)) c1 (post src (QListLoop t acc) c)).
  { intros c1 F1. clear F. repeat C. cbn [post post0]. intros i0 v1 G0. fin g_list. }
  repeat C.
  { cbn [post post0]. intros i0 v1 G0. fin g_list. }
  R Rec. intros [n|] c2 H2; cbn [post post0] in H2.
  - destruct H2 as (i2 & F2 & G2 & L2). mg F2. R Rec. intros [m|] c3 H3; cbn [post post0] in *; [|destruct H3].
    intros i0 v1 G0. destruct (H3 (i0 ++ i2) v1) as (i3 & F3 & G3); [now apply g_sels_snoc|]. mg F3.
    ext. eapply eq_gram; [exact G3|asc].
  - apply Fin. eapply fl_nil_r; eauto.
Qed.

Lemma numeral_dec v : Forall digit v -> numeral v (dec_N v).
Proof.
  intros H. assert (D : forall c, digit c -> nth_error digits (N.to_nat (code c - 48)) = Some c).
  { unfold digit, one_of. intros c Hc. cbv in Hc. repeat (destruct Hc as [<-|Hc]; [reflexivity|]). destruct Hc. }
  induction v as [|c v IH] using rev_ind; [constructor|]. apply Forall_app in H as [H1 H2].
  inversion_clear H2. unfold dec_N. rewrite fold_left_app. cbn [fold_left].
  rewrite N.mul_comm. rewrite <- (N2Nat.id (code c - 48)). constructor; auto.
Qed.
Lemma tok_int_view t : tokok src PS_Expr t -> tk t = tok_int -> Forall digit (tview t).
Proof.
  intros (_ & H & _) K. rewrite K in H. destruct H as [H|[_ [[? _]|[? _]]]]; try discriminate.
  remember (tview t) as v. clear Heqv. inversion H; subst; auto.
  match goal with X : In _ documented |- _ => unfold documented in X; simpl in X; repeat (destruct X as [X|X]; [discriminate|]); destruct X end.
Qed.
Lemma tok_spath_view t : tokok src PS_Expr t -> tk t = tok_spath ->
  tview t = b "<" ++ firstn (List.length (tview t) - 2) (skipn 1 (tview t)) ++ b ">".
Proof.
  intros (_ & H & _) K. rewrite K in H.
  assert (Hs : exists m, tview t = b "<" ++ m ++ b ">").
  { destruct H as [H|[_ [[? _]|[_ H]]]]; [|discriminate|].
    - remember (tview t) as v. clear Heqv. inversion H; subst.
      + match goal with X : In _ documented |- _ => unfold documented in X; simpl in X; repeat (destruct X as [X|X]; [discriminate|]); destruct X end.
      + exists ((c :: w) ++ flat_map (fun s => b "/" ++ s) segs). now rewrite <- app_assoc.
    - destruct H as (c & w & segs & _ & _ & _ & ->). exists ((c :: w) ++ flat_map (fun s => b "/" ++ s) segs ++ b "/").
      rewrite <- !app_assoc. reflexivity. }
  destruct Hs as [m ->]. cbn [b list_ascii_of_string app skipn List.length]. rewrite app_length. cbn [List.length].
  replace (S (List.length m + 1) - 2) with (List.length m + 0) by lia. rewrite firstn_app_2. cbn [firstn]. now rewrite app_nil_r.
Qed.

Lemma f_simple : good_fun QSimple (parseExprSimple rec).
Proof.
  start. unfold parseExprSimple. repeat C. destruct (tk t) eqn:K; repeat C; cbn [post post0]; try exact F0.
  all: try (R Rec; intros [n|] c2 H2; cbn [post post0] in *; [|first [contradiction|exact (fl_nil_r _ _ _ _ _ F0 H2)]]).
  all: try (destruct H2 as (i2 & F2 & G2); mg F2; ext; try exact G2; try (eapply g_string; eauto)).
  - fin g_var.
  - destruct (from_chars (tview t)) as [n|] eqn:En; repeat C. cbn [post post0].
    unfold from_chars in En. destruct (_ <? _)%N eqn:El; [|discriminate]. injection En as <-. fin g_int.
    + apply numeral_dec. eapply tok_int_view; eauto.
    + now apply N.ltb_lt.
  - fin g_float.
  - pose proof (tok_spath_view t T K) as V. ext. eapply eq_gram; [apply g_spath|].
    cbn [app]. now rewrite <- V.
  - ext. cbn [mergeFragments existsb flat_map orb]. rewrite app_nil_r. apply g_uri.
Qed.

Lemma f_select : good_fun QSelect (parseExprSelect rec).
Proof.
  start. unfold parseExprSelect. repeat C. R Rec. intros [e|] c2 H2; cbn [post post0] in H2; [|repeat C; exact H2].
  destruct H2 as (i2 & F2 & G2 & L2). mg F2. repeat C; cbn [post post0].
  2:{ ext. now apply g_simple. }
  R Rec. intros [p|] c3 H3; repeat C. cbn [post post0] in H3. destruct H3 as (j & r & ns & ds & -> & i3 & F3 & G3 & L3). mg F3.
  repeat C; cbn [post post0].
  - R Rec. intros [d|] c4 H4; repeat C. cbn [post post0] in *. destruct H4 as (i4 & F4 & G4 & L4). mg F4. fin g_select_or.
  - fin g_select.
Qed.
Lemma f_apploop f args : good_fun (QAppLoop f args) (parseExprAppLoop rec f args).
Proof.
  start. unfold parseExprAppLoop. repeat C. R Rec. intros [e|] c2 H2; cbn [post post0] in H2.
  - destruct H2 as (i2 & F2 & G2 & L2). mg F2. R Rec. intros [m|] c3 H3; cbn [post post0] in *; [|destruct H3].
    intros j1 j2 G0 L0 G1. destruct (H3 j1 (j2 ++ i2) G0 L0) as (i3 & F3 & G3); [now apply g_sels_snoc|]. mg F3.
    ext. eapply eq_gram; [exact G3|asc].
  - destruct args as [|a args]; repeat C; cbn [post post0]; intros j1 j2 G0 L0 G1; (eexists; split; [exact H2|]).
    + rewrite (gram_nil _ _ G1), app_nil_r by reflexivity. now apply g_sel.
    + rewrite app_nil_r. apply g_call; auto. discriminate.
Qed.
Lemma f_app : good_fun QApp (parseExprApp rec).
Proof.
  start. unfold parseExprApp. repeat C. R Rec. intros [e|] c2 H2; cbn [post post0] in H2; [|repeat C; exact I].
  destruct H2 as (i2 & F2 & G2 & L2). mg F2. destruct (maybeLambda e); repeat C; cbn [post post0].
  - R Rec. intros [m|] c3 H3; cbn [post post0] in *; [|destruct H3].
    destruct (H3 i2 [] G2 L2 (g_sels_nil _ _)) as (i3 & F3 & G3). mg F3. ext. exact G3.
  - ext. now apply g_sel.
Qed.

(** * Attribute names *)
Lemma f_attrname : good_fun QAttrName (parseAttrName rec).
Proof.
  start. unfold parseAttrName. repeat C. destruct (tk t) eqn:K; repeat C; cbn [post post0]; try exact F0.
  - fin g_name_or.
  - fin g_name_id.
  - R Rec. intros [n|] c2 H2; cbn [post post0] in *; [|destruct H2]. destruct H2 as (i2 & F2 & G2). mg F2. repeat C.
    cbn [post post0]. fin g_name_string.
  - R Rec. { split; [exact (fl_J _ _ _ _ F0)|exact I]. }
    intros [n|] c2 H2; cbn [post post0] in *; [|destruct H2]. destruct (H2 false ltac:(discriminate)) as ((i2 & F2 & G2) & _).
    rewrite (fl_mode _ _ _ _ F0), Hm in G2. mg F2. repeat C. cbn [post post0]. fin g_name_interp.
Qed.
Lemma f_attrpathloop c0 ns ds p : good_fun (QAttrPathLoop c0 ns ds p) (parseAttrPathLoop rec c0 ns ds p).
Proof.
  start. unfold parseAttrPathLoop. repeat C.
  - R Rec. intros [n|] c2 H2; repeat C. cbn [post post0] in H2. destruct H2 as (i2 & F2 & G2 & L2). mg F2.
    R Rec. intros [m|] c3 H3; cbn [post post0] in *; [|destruct H3].
    intros i0 G0. destruct (H3 (i0 ++ [E tok_dot (tview t)] ++ i2)) as (i4 & r4 & ns' & ds' & i3 & -> & F3 & G3).
    { now apply g_attrpath_dot. }
    mg F3. exists i4, r4, ns', ds'. eexists. split; [reflexivity|]. split; [flx|]. eapply eq_gram; [exact G3|asc].
  - cbn [post post0]. intros i0 G0. eexists _, _, _, _, _. split; [reflexivity|]. split; [flx|]. now rewrite app_nil_r.
Qed.
Lemma f_attrpath : good_fun QAttrPath (parseAttrPath rec).
Proof.
  start. unfold parseAttrPath. repeat C. R Rec. intros [n|] c2 H2; repeat C; cbn [post post0] in *; [|exact H2].
  destruct H2 as (i2 & F2 & G2 & L2). mg F2. R Rec. intros [m|] c3 H3; cbn [post post0] in *; [|destruct H3].
  destruct (H3 i2 (g_attrpath_one _ _ _ _ G2 L2)) as (i4 & r4 & ns' & ds' & i3 & -> & F3 & G3). mg F3.
  exists i4, r4, ns', ds'. split; [reflexivity|]. ext. exact G3.
Qed.

(** * Bindings *)
Lemma f_binding : good_fun QBinding (parseBinding src rec).
Proof.
  start. unfold parseBinding. repeat C. R Rec. intros [n|] c2 H2; repeat C; cbn [post post0] in *; [|exact H2].
  destruct H2 as (i & r & ns & ds & -> & i2 & F2 & G2 & L2). mg F2. repeat C. R Rec. intros e c3 H3. repeat C.
  destruct H3 as (i3 & F3 & G3 & L3). mg F3. repeat C. cbn [post post0]. fin g_binding.
Qed.
Lemma f_inheritloop t e ns : good_fun (QInheritLoop t e ns) (parseInheritLoop src rec t e ns).
Proof.
  start. unfold parseInheritLoop. repeat C. R Rec. intros [n|] c2 H2; cbn [post post0] in H2.
  - destruct H2 as (i2 & F2 & G2 & L2). mg F2. R Rec. intros [m|] c3 H3; cbn [post post0] in *; [|destruct H3].
    intros i0 G0. destruct (H3 (i0 ++ i2)) as (i4 & r4 & ns' & its & i1 & v & -> & F3 & E3 & G3); [now apply g_names_snoc|].
    mg F3. exists i4, r4, ns'. eexists _, i1, v. split; [reflexivity|]. split; [flx|]. split; [|exact G3].
    rewrite <- E3. asc.
  - pose proof (fl_nil_r _ _ _ _ _ F H2) as F'. clear F H2. repeat C.
    destruct ns; repeat C; cbn [post post0]; intros i0 G0; (eexists _, _, _, _, i0, _; split; [reflexivity|]; split; [flx|];
      split; [reflexivity|exact G0]).
Qed.
Lemma f_inherit : good_fun QInherit (parseInherit src rec).
Proof.
  start. unfold parseInherit. repeat C; [| |cbn [post post0]; flx].
  - R Rec. intros e c2 H2. repeat C. destruct H2 as (i2 & F2 & G2 & L2). mg F2. repeat C.
    R Rec. intros [m|] c9 H3; cbn [post post0] in *; [|destruct H3].
    destruct (H3 [] (g_names_nil _ _)) as (i4 & r4 & ns' & its & i1 & v & -> & F3 & E3 & G3). mg F3. cbn [app] in E3. subst its.
    fin g_inherit_from.
  - R Rec. intros [m|] c9 H3; cbn [post post0] in *; [|destruct H3].
    destruct (H3 [] (g_names_nil _ _)) as (i4 & r4 & ns' & its & i1 & v & -> & F3 & E3 & G3). mg F3. cbn [app] in E3. subst its.
    fin g_inherit.
Qed.
Lemma f_bindsloop c0 acc : good_fun (QBindsLoop c0 acc) (parseBindsLoop src rec c0 acc).
Proof.
  assert (Q : forall (m : P (option node)) c c2 i2 n,
    fl c i2 c2 -> G (Bind n) i2 -> located src n i2 -> cl m c2 (post src (QBindsLoop c0 (acc ++ [n])) c2) ->
    cl m c2 (post src (QBindsLoop c0 acc) c)).
  { intros m c c2 i2 n F2 G2 L2 H. eapply cl_mono; [exact H|]. intros a c3 H3. cbn [post post0] in *. intros i0 G0.
    destruct (H3 (i0 ++ i2)) as (i3 & F3 & G3); [now apply g_binds_snoc|]. mg F3. ext. eapply eq_gram; [exact G3|asc]. }
  start. unfold parseBindsLoop. repeat C. R Rec. intros [n|] c2 H2; cbn [post post0] in H2.
  { destruct H2 as (i2 & F2 & G2 & L2). mg F2. eapply Q; [flx|exact G2|exact L2|]. apply Rec. usual. }
  pose proof (fl_nil_r _ _ _ _ _ F H2) as F'. clear F H2. repeat C. R Rec. intros [n|] c3 H3; cbn [post post0] in H3.
  { destruct H3 as (i2 & F2 & G2 & L2). mg F2. eapply Q; [flx|exact G2|exact L2|]. apply Rec. usual. }
  pose proof (fl_nil_r _ _ _ _ _ F' H3) as F. clear F' H3. repeat C.
  destruct acc as [|a acc]; repeat C; cbn [post post0]; intros i0 G0; ext; rewrite app_nil_r.
  - rewrite (gram_nil _ _ G0) by reflexivity. apply g_binds_none.
  - apply g_binds_some; auto. discriminate.
Qed.
Lemma f_binds : good_fun QBinds (parseBinds rec).
Proof.
  start. unfold parseBinds. repeat C. R Rec. intros r c2 H2. cbn [post post0] in *.
  destruct (H2 [] (g_binds_nil _ _)) as (i2 & F2 & G2). mg F2. ext. exact G2.
Qed.
Lemma f_attrs : good_fun QAttrs (parseExprAttrs src rec).
Proof.
  start. unfold parseExprAttrs. repeat C; repeat C.
  all: R Rec; intros bs c2 H2; cbn [post post0] in H2; destruct H2 as (i2 & F2 & G2); mg F2; repeat C; cbn [post post0].
  - fin g_rec_attrs.
  - fin g_attrs.
Qed.
End Fun.
