(** For C68: the parsing functions, second part. *)
From Verif Require Import Base Diag LexModel LexSpec LexProofs AstModel PSupModel SemaModel ParseModel ParseSpec
  ParseInv GramSpec GramBase GramMono GramStep GramPost.

Section Fun.
Context {Qt : Quiet}.
Variable src : bytes.
Notation G := (gram_at false (located src)).
Variable rec : nt -> P (option node).
Hypothesis Mrec : forall q, mono (rec q).
Hypothesis Rec : forall q c, pre src q c -> cl (rec q) c (post src q c).
Notation J := (J src). Notation fl := (fl src).
Notation good_fun q m := (forall c, pre src q c -> cl m c (post0 src q c)).
Ltac RX e c H := R Rec; intros e c H; repeat C; let i := fresh "i" in let F := fresh "F" in let G := fresh "G" in
  destruct H as (i & F & G); mg F.

(** * Expressions *)
Lemma f_if : good_fun QIf (parseExprIf src rec).
Proof.
  start. unfold parseExprIf. repeat C. kbeq. repeat C.
  R Rec. intros [e|] c5 H5; repeat C. destruct H5 as (i5 & F5 & G5 & L5). mg F5. repeat C.
  R Rec. intros [e6|] c6 H6; repeat C. destruct H6 as (i6 & F6 & G6 & L6). mg F6. repeat C.
  R Rec. intros [e7|] c7 H7; repeat C. destruct H7 as (i7 & F7 & G7 & L7). mg F7. cbn [post post0]. fin g_if.
Qed.
Lemma f_assert : good_fun QAssert (parseExprAssert src rec).
Proof.
  start. unfold parseExprAssert. repeat C. kbeq. repeat C.
  R Rec. intros [e|] c5 H5; repeat C. destruct H5 as (i5 & F5 & G5 & L5). mg F5. repeat C.
  R Rec. intros e6 c6 H6; repeat C. destruct H6 as (i6 & F6 & G6 & L6). mg F6. cbn [post post0]. fin g_assert.
Qed.
Lemma f_with : good_fun QWith (parseExprWith src rec).
Proof.
  start. unfold parseExprWith. repeat C. kbeq. repeat C.
  R Rec. intros e c5 H5; repeat C. destruct H5 as (i5 & F5 & G5 & L5). mg F5. repeat C.
  R Rec. intros e6 c6 H6; repeat C. destruct H6 as (i6 & F6 & G6 & L6). mg F6. cbn [post post0]. fin g_with.
Qed.
Lemma f_let : good_fun QLet (parseExprLet src rec).
Proof.
  start. unfold parseExprLet. repeat C. kbeq. repeat C.
  R Rec. intros bs c5 H5. cbn [post post0] in H5. destruct H5 as (i5 & F5 & G5). mg F5.
  destruct bs as [bn|]; repeat C;
    (R Rec; intros e6 c6 H6; repeat C; destruct H6 as (i6 & F6 & G6 & L6); mg F6; cbn [post post0]).
  - fin g_let.
  - assert (Hn : i5 = []) by (inversion G5; reflexivity). subst i5. fin g_let_none.
Qed.
Lemma f_legacylet : good_fun QLegacyLet (parseExprLegacyLet src rec).
Proof.
  start. unfold parseExprLegacyLet. repeat C. kbeq. repeat C.
  R Rec. intros bs c5 H5. cbn [post post0] in H5. destruct H5 as (i5 & F5 & G5). mg F5. repeat C.
  destruct (match attrs_sema _ with Some _ => _ | None => _ end) eqn:Hs; repeat C.
  destruct (body_binding (binds_list bs)) as [[bd [v|]]|]; repeat C; cbn [post post0]; fin g_legacy_let.
Qed.

(** * Lambdas *)
Lemma f_formal : good_fun QFormal (parseFormal rec).
Proof.
  start. unfold parseFormal. repeat C; repeat C.
  - destruct (tk t0) eqn:K0; repeat C; cbn [post post0].
    all: try (eexists; split; [flx|]; apply rf_comma).
    + R Rec. intros e5 c5 H5; repeat C. destruct H5 as (i5 & F5 & G5 & L5). mg F5. cbn [post post0]. eexists; split; [flx|].
      cbn [app]. rewrite <- ?app_assoc. cbn [app]. apply rf_cid. now apply g_default.
    + eexists; split; [flx|]. cbn [app]. apply (rf_cid _ _ _ _ _ _ _ None []). apply g_default_none.
    + eexists; split; [flx|]. cbn [app]. apply rf_cell.
  - destruct (tk t) eqn:K0; repeat C; cbn [post post0]; try flx.
    + R Rec. intros e5 c5 H5; repeat C. destruct H5 as (i5 & F5 & G5 & L5). mg F5. cbn [post post0]. eexists; split; [flx|].
      cbn [app]. rewrite <- ?app_assoc. cbn [app]. apply rf_id. now apply g_default.
    + eexists; split; [flx|]. cbn [app]. apply (rf_id _ _ _ _ _ None []). apply g_default_none.
    + eexists; split; [flx|]. cbn [app]. apply rf_ell.
Qed.
Lemma f_formalsloop t acc : good_fun (QFormalsLoop t acc) (parseFormalsLoop src rec t acc).
Proof.
  start. unfold parseFormalsLoop.
  assert (Fin : forall c1, fl c [] c1 -> cl (let! er := expect src tok_r_curly in
    do! (match er with Some _ => consume | None => noteMatch (trange t) tok_l_curly end) in
    let! r := toLast (lcur (trange t)) in
    let! f := onFormals src r acc in
    ok_ f) c1 (post src (QFormalsLoop t acc) c)).
  { intros c1 F1. clear F. repeat C. apply cl_onFormals. intros H1 H2 H3 i d. repeat C. cbn [post post0]. intros i0 G0.
    eexists; split; [flx|]. intros v1. cbn [app]. change (E tok_l_curly v1 :: i0 ++ [E tok_r_curly (tview t0)])
      with ([E tok_l_curly v1] ++ i0 ++ [E tok_r_curly (tview t0)]). now apply raws_set. }
  C. C. C; [now apply Fin|]. C. R Rec. intros [n|] c2 H2; cbn [post post0] in H2.
  - destruct H2 as (i2 & F2 & G2). mg F2. R Rec. intros [m|] c3 H3; cbn [post post0] in *; [|destruct H3].
    intros i0 G0. destruct (H3 (i0 ++ i2)) as (i3 & F3 & G3); [now apply raws_snoc|]. mg F3.
    eexists. split; [flx|]. intros v1. eapply eq_gram; [apply G3|asc].
  - pose proof (fl_nil_r _ _ _ _ _ F0 H2) as F'. clear F0 H2. C. C. now apply Fin.
Qed.
Lemma f_formals : good_fun QFormals (parseFormals src rec).
Proof.
  start. unfold parseFormals. repeat C. R Rec. intros [m|] c3 H3; cbn [post post0] in *; [|destruct H3].
  destruct (H3 [] raws_nil) as (i3 & F3 & G3). mg F3. ext. eapply eq_gram; [apply G3|asc].
Qed.
Lemma f_lambdaarg : good_fun QLambdaArg (parseLambdaArg src rec).
Proof.
  start. unfold parseLambdaArg. repeat C.
  - R Rec. intros [m|] c3 H3; cbn [post post0] in *; repeat C. destruct H3 as (i3 & F3 & G3). mg F3. cbn [post post0]. fin g_arg_id_set.
  - cbn [post post0]. fin g_arg_id.
  - R Rec. intros [m|] c3 H3; cbn [post post0] in *; repeat C; [|exact I].
    destruct H3 as (i3 & F3 & G3). mg F3. repeat C; cbn [post post0].
    + fin g_arg_set_id.
    + fin g_arg_set.
Qed.
Lemma f_lambda : good_fun QLambda (parseExprLambda src rec).
Proof.
  start. unfold parseExprLambda. repeat C. R Rec. intros [m|] c3 H3; cbn [post post0] in *; repeat C; [|exact I].
  destruct H3 as (i3 & F3 & G3). mg F3. repeat C. R Rec. intros e5 c5 H5; repeat C. destruct H5 as (i5 & F5 & G5 & L5). mg F5.
  cbn [post post0]. fin g_lambda.
Qed.
End Fun.
