(** For C68: operators and expressions. *)
From Verif Require Import Base Diag LexModel LexSpec LexProofs AstModel PSupModel SemaModel ParseModel ParseSpec
  ParseInv GramSpec GramBase GramMono GramStep GramPost.

Section Fun.
Context {Qt : Quiet}.
Variable src : bytes.
Notation G := (gram_at false (located src)).
Variable rec : nt -> P (option node).
Notation J := (J src). Notation fl := (fl src).
Notation good_fun q m := (forall c, pre src q c -> cl m c (post0 src q c)).
Hypothesis Mrec : forall q, mono (rec q).
Hypothesis Rec : forall q c, pre src q c -> cl (rec q) c (post src q c).

Lemma front_same c c0 t bf t0 bf0 : fl c [] c0 -> cbuf c = t :: bf -> cbuf c0 = t0 :: bf0 -> t0 = t.
Proof.
  intros F E E0. pose proof (f_b1 _ _ _ _ F) as H. rewrite E in H. cbn [List.length] in H.
  specialize (H ltac:(lia)). cbn [skipn] in H. congruence.
Qed.
Lemma f_oploop bp p : good_fun (QOpLoop bp p) (parseExprOpLoop rec bp p).
Proof.
  start. unfold parseExprOpLoop. C. eapply r_peek; [exact F|]. intros t c0 bf F0 Eb _. clear F. cbv zeta.
  assert (Rk : (forall k, Forall (okb k) (right_edge p)) \/
               (exists t bf, cbuf c = t :: bf /\ Forall (okb (tk t)) (right_edge p)) -> Forall (okb (tk t)) (right_edge p)).
  { intros [R0|(t1 & bf1 & E1 & R0)]; auto. now rewrite (front_same _ _ _ _ _ _ F0 E1 Eb). }
  destruct (isBinOp (tk t)) eqn:Kb.
  - destruct (getBP (tk t)) as [[lb rb]|] eqn:Kg; [|C].
    destruct (Nat.ltb lb bp) eqn:Kl; [C|].
    + cbn [post post0]. intros i0 G0 L0 R0. split; [exists []; rewrite app_nil_r; auto|]. split; auto.
      exists t, bf. split; auto. split.
      * auto.
      * split; [intros K; rewrite K in Kb; discriminate|]. intros _. exists lb, rb. split; auto. now apply Nat.ltb_lt.
    + apply Nat.ltb_ge in Kl. C. destruct (Nat.eqb bp lb) eqn:Ke; C. apply Nat.eqb_neq in Ke.
      C. C. C. C. C. C. C. R Rec. intros [rn|] c3 H3; [|C; C].
      cbn [post post0] in H3. destruct H3 as ((i3 & F3 & G3) & L3 & t3 & bf3 & E3 & R3 & S3).
      mg F3. C. C. R Rec. intros [n|] c4 H4; cbn [post post0] in *; [|exact I].
      intros j0 G0 L0 R0.
      assert (Erb : rbp (tk t) = rb) by (unfold GramStep.rbp; now rewrite Kg).
      assert (R0' : Forall (fun o => closes_ false o (Bin (tk t))) (right_edge p)).
      { eapply Forall_impl; [|exact (Rk R0)]. intros o [H _]. auto. }
      destruct (H4 (j0 ++ [E (tk t) (tview t)] ++ i3)) as ((i4 & F4 & G4) & O4).
      { eapply eq_gram; [eapply g_binary; [apply isBinOp_in; exact Kb|exact G0|exact G3|exact R0'|]|reflexivity].
        apply above_nests; auto. now rewrite Erb. }
      { cbn [left_edge]. constructor; auto. split; auto. exists lb, rb. split; auto. lia. }
      { right. exists t3, bf3. split; auto. cbn [right_edge]. constructor; auto. apply okb_stop; auto. now rewrite Erb. }
      split; auto. mg F4. ext. eapply eq_gram; [exact G4|asc].
  - assert (Ok : tk t <> tok_question -> cl (ok_ p) c0 (post0 src (QOpLoop bp p) c)).
    { intros Kq. C. cbn [post post0]. intros i0 G0 L0 R0. split; [exists []; rewrite app_nil_r; auto|]. split; auto.
      exists t, bf. split; auto. split; [|split; auto; congruence]. auto. }
    destruct (tk t) eqn:K; try (apply Ok; discriminate); clear Ok.
    + C. C. C. C.
    + C. C. C. C. C. C. C. R Rec. intros path c3 H3. cbn [post post0] in H3.
      assert (H5 : exists i3, fl (pop t c0) i3 c3 /\ (path = None /\ i3 = [] \/
                exists ip rp ns ds, path = Some (NAttrPath ip rp ns ds) /\ G (AttrPath ns) i3 /\ located src (NAttrPath ip rp ns ds) i3)).
      { destruct path as [pn|]; [|exists []; auto]. destruct H3 as (ip & rp & ns & ds & -> & i3 & F3 & G3 & L3).
        exists i3. split; auto. right. eauto 8. }
      clear H3. destruct H5 as (i3 & F3 & H5). mg F3. C. C. C. C. R Rec.
      intros [n|] c4 H4; cbn [post post0] in *; [|exact I]. intros j0 G0 L0 R0.
      assert (R0' : Forall (fun o => closes_ false o Has) (right_edge p)).
      { eapply Forall_impl; [|exact (Rk R0)]. intros o [_ H]. auto. }
      destruct (H4 (j0 ++ [E (tk t) (tview t)] ++ i3)) as ((i4 & F4 & G4) & O4).
      { rewrite K. destruct H5 as [[-> ->]|(ip & rp & ns & ds & -> & G3 & L3)].
        - rewrite app_nil_r. apply g_has_nothing; auto.
        - apply g_has; auto. }
      { cbn [left_edge]. constructor; auto. exact I. }
      { left. intros k. cbn [right_edge]. constructor; auto. apply okb_has. }
      split; auto. mg F4. ext. eapply eq_gram; [exact G4|]. rewrite K. asc.
Qed.
Lemma f_op bp : good_fun (QOp bp) (parseExprOpBP rec bp).
Proof.
  start. unfold parseExprOpBP. C. C. C. C. apply cl_bind; [destruct (tk t); M3|intros; M3|].
  assert (Q : cl (match tk t with
     | tok_op_not | tok_op_negate =>
         do! consume in do! assertLast in let! io := fresh in
         let! e := rec (QOp (getUnaryBP (tk t))) in
         do! (match e with
              | Some _ => ret tt
              | None => match tk t with tok_op_not => diagNullExpr "unary operator !" | _ => diagNullExpr "unary operator -" end
              end) in
         let! r := toLast (lcur (trange t)) in let! i := fresh in
         ok_ (NUnary i r (NOp io (trange t) (tk t)) e)
     | _ => rec QApp
     end) c0 (fun r c' => match r with None => True | Some p => exists its, fl c its c' /\ G (Op p) its /\ left_edge p = [] /\
       ((forall k, Forall (okb k) (right_edge p)) \/
        (exists t bf, cbuf c' = t :: bf /\ Forall (okb (tk t)) (right_edge p))) end)).
  { assert (A : cl (rec QApp) c0 (fun r c' => match r with None => True | Some p => exists its, fl c its c' /\ G (Op p) its /\ left_edge p = [] /\
       ((forall k, Forall (okb k) (right_edge p)) \/
        (exists t bf, cbuf c' = t :: bf /\ Forall (okb (tk t)) (right_edge p))) end)).
    { R Rec. intros [n|] c3 H3; [|exact I]. cbn [post post0] in H3. destruct H3 as (i3 & F3 & G3). mg F3.
      eexists. split; [flx|]. destruct (app_edges _ _ G3) as [-> ->]. split; [apply g_app; exact G3|]. split; auto. }
    assert (U : forall u s, In u [tok_op_not; tok_op_negate] -> tk t = u -> cl (do! consume in do! assertLast in let! io := fresh in
         let! e := rec (QOp (getUnaryBP u)) in
         do! (match e with
              | Some _ => ret tt
              | None => diagNullExpr s
              end) in
         let! r := toLast (lcur (trange t)) in let! i := fresh in
         ok_ (NUnary i r (NOp io (trange t) u) e)) c0 (fun r c' => match r with None => True | Some p => exists its, fl c its c' /\ G (Op p) its /\ left_edge p = [] /\
       ((forall k, Forall (okb k) (right_edge p)) \/
        (exists t bf, cbuf c' = t :: bf /\ Forall (okb (tk t)) (right_edge p))) end)).
    { intros u s Hu K. clear A. C. C. C. C. C. C. apply cl_bind; [M3|intros; M3|]. R Rec. intros [e|] c3 H3.
      - C. C. C. C. C. C. C. cbn [post post0] in H3. destruct H3 as ((i3 & F3 & G3) & L3 & t3 & bf3 & E3 & R3 & S3). mg F3.
        eexists. split; [flx|]. split; [|split; [reflexivity|]].
        + eapply eq_gram; [eapply g_unary; [exact Hu|exact G3|apply above_unary; auto]|]. asc.
        + right. exists t3, bf3. split; auto. cbn [right_edge]. constructor; auto. apply okb_unary; auto.
      - C. C. }
    destruct (tk t) eqn:K; try exact A.
    - apply (U tok_op_not "unary operator !"%string); simpl; auto.
    - apply (U tok_op_negate "unary operator -"%string); simpl; auto. }
  eapply cl_mono; [exact Q|]. clear Q. intros [p|] c3 H3; [|C; exact I].
  destruct H3 as (i3 & F3 & G3 & L3 & R3). clear dependent c0. R Rec. intros [n|] c4 H4; cbn [post post0] in *; [|exact I].
  destruct (H4 i3 G3) as ((i4 & F4 & G4) & O4); auto. { rewrite L3. constructor. }
  split; auto. mg F4. ext. exact G4.
Qed.
(** * Look-ahead *)
Definition curly (X : sym) (its : list item) : Prop :=
  match X with
  | Expr _ | Op _ | App _ | Sel _ | Simple _ =>
      forall it r, its = it :: r -> kind_of_item it = tok_l_curly ->
        3 <= List.length its \/ exists it2, r = [it2] /\ kind_of_item it2 = tok_r_curly
  | Str _ _ => exists it r, its = it :: r /\ kind_of_item it <> tok_l_curly
  | Frags _ _ => exists it r, its = it :: r /\ kind_of_item it <> tok_l_curly
  | _ => True
  end.
Ltac lens := rewrite ?app_length; cbn [List.length];
  repeat match goal with
  | H : gram_at false (located src) ?X ?i |- _ =>
      lazymatch X with Frags _ _ => fail | Formals _ _ => fail | _ => idtac end;
      apply gram_shape in H; cbn [shape] in H
  end;
  repeat match goal with H : ?n <> [], K : ?n <> [] -> _ |- _ => specialize (K H) end;
  repeat match goal with H : 2 <= List.length _ \/ (exists it, _ = [it] /\ _) |- _ =>
      destruct H as [H|(? & -> & H)]; cbn [List.length] end; lia.
Lemma gram_curly X its : gram_at false (located src) X its -> curly X its.
Proof.
  induction 1; cbn [curly] in *; auto.
  all: try (intros it0 r0 E0 K0; injection E0 as <- <-; discriminate K0).
  all: try (eexists _, _; split; [reflexivity|discriminate]).
  all: try (intros it0 r0 E0 K0; left; clear E0; lens).
  all: try (destruct IHgram_at as (it0 & r0 & -> & K); intros it1 r1 E1 K1; injection E1 as <- <-; contradiction).
  all: try (destruct IHgram_at as (it0 & r0 & -> & K); eexists _, _; split; [reflexivity|exact K]).
  all: try (destruct IHgram_at1 as (it0 & r0 & -> & K); eexists _, _; split; [reflexivity|exact K]).
  - (* prefix *) intros it0 r0 E0 K0. injection E0 as <- <-. cbn in K0. subst k. destruct H as [H|[H|[]]]; discriminate H.
  - (* a ? *) intros it0 r0 E0 K0. left. apply gram_shape in H0. cbn [shape] in H0. rewrite app_length. cbn [List.length].
    destruct H0 as [H0|(it1 & -> & K1)]; [lia|]. injection E0 as <- <-. contradiction.
  - (* call *) intros it0 r0 E0 K0. left. pose proof (gram_shape _ _ H1) as S2. cbn [shape] in S2. specialize (S2 H2).
    apply gram_shape in H. cbn [shape] in H. rewrite app_length. cbn [List.length].
    destruct H as [H|(it1 & -> & K1)]; [lia|]. injection E0 as <- <-. contradiction.
  - (* { } *) intros it0 r0 E0 K0. destruct i1 as [|x i1]; [|left; cbn [app List.length]; rewrite app_length; cbn; lia].
    right. injection E0 as <- <-. eexists. split; reflexivity.
Qed.

Record seen (c c' : core_) (n : nat) : Prop := {
  s_J : J c';
  s_last : clast c' = clast c;
  s_modes : cmodes c' = cmodes c;
  s_front : silent = true -> forall p, front c' p -> front c p;
  s_buf : exists more, cbuf c' = cbuf c ++ more /\ (more <> [] -> List.length (cbuf c') <= n) }.
Lemma r_peekk_n n pre bf c c1 (Q : tkind -> core_ -> Prop) :
  seen c c1 n -> cbuf c1 = pre ++ bf -> List.length pre = n -> Forall (fun x => la (tk x)) pre ->
  (forall t c2 bf', seen c c2 (S n) -> cbuf c2 = pre ++ t :: bf' -> Q (tk t) c2) -> cl (peekk n) c1 Q.
Proof.
  intros [HJ Hl Hm Hf (more & Eb & Hn)] E Hlen Hla H. apply cl_bind; [apply mono_peek|intros; apply mono_ret|].
  apply (cl_peek src n pre bf); auto.
  - intros t bf' ->. apply cl_ret. eapply H; [|exact E]. constructor; auto. exists more. split; auto.
  - intros -> t cu r c' HJ' Hpk. apply cl_ret. eapply (H t c' []); [|reflexivity]. constructor; auto.
    { intros Hq p Hp. apply (Hf Hq). destruct pre as [|x pre].
      - cbn in Hlen. subst n. apply (f_first _ _ _ _ (pk_fl src _ _ _ (Hpk eq_refl) HJ') Hq). exact Hp.
      - unfold front in *. rewrite app_nil_r in E. rewrite E. exact Hp. }
    exists (more ++ [t]). unfold c'. cbn [cbuf]. rewrite app_nil_r in E. split; [rewrite <- E, Eb, <- app_assoc; reflexivity|].
    intros _. rewrite app_length. cbn. lia.
Qed.
Lemma seen_fl c c1 n its c' : seen c c1 (S n) -> n <= List.length its -> fl c1 its c' -> fl c its c'.
Proof.
  intros [HJ Hl Hm Hf (more & Eb & Hn)] Hlen F. eapply (fl_ext src c c1 its c' more); eauto. intros X. specialize (Hn X). lia.
Qed.
Lemma seen_pre c c1 n q : pre src QExpr c -> seen c c1 n ->
  match q with QIf | QAssert | QLet | QLegacyLet | QWith | QLambda | QOp _ | QAttrs => True | _ => False end -> pre src q c1.
Proof.
  intros [_ Hm] [HJ _ Em _ _] Hq. cbn in Hm. assert (cmode c1 = PS_Expr) by (unfold cmode in *; congruence).
  destruct q; try contradiction; split; auto.
Qed.
(** any of the calls made by parseExpr *)
Lemma f_expr_call c c1 n q (ks : list token) : pre src QExpr c -> seen c c1 (S n) ->
  match q with QIf | QAssert | QLet | QLegacyLet | QWith | QLambda | QOp _ | QAttrs => True | _ => False end ->
  (exists bf, cbuf c1 = ks ++ bf) ->
  n <= 1 \/ (n = 2 /\ map tk ks = [tok_l_curly]) \/ (n = 3 /\ map tk ks = [tok_l_curly; tok_id]) ->
  cl (rec q) c1 (post0 src QExpr c).
Proof.
  intros Hp S1 Hq [bf Eb] Hn. eapply cl_mono; [apply Rec; eapply seen_pre; eauto|].
  intros [m|] c2 H2; [|exact I].
  assert (X : exists its, fl c1 its c2 /\ gram_at false (located src) (Expr m) its).
  { destruct q; try contradiction; cbn [post post0] in H2; [destruct H2 as [H2 _]| | | | | | | ];
      destruct H2 as (its & F & Hg); exists its; split; auto using g_op, g_app, g_sel, g_simple. }
  clear H2. destruct X as (its & F & Hg). cbn [post post0]. exists its. split; auto. eapply seen_fl; eauto.
  destruct Hn as [Hn|[[-> K]|[-> K]]].
  - apply expr_len in Hg. lia.
  - destruct ks as [|t [|? ?]]; try discriminate K. injection K as K. apply gram_shape in Hg. cbn [shape] in Hg.
    destruct Hg as [Hg|(it & -> & Hk)]; [lia|]. destruct (f_b3 _ _ _ _ F 0 it t eq_refl); [now rewrite Eb| |]; congruence.
  - destruct ks as [|t [|t2 [|? ?]]]; try discriminate K. injection K as K K2.
    pose proof (gram_shape _ _ Hg) as Hs. cbn [shape] in Hs. pose proof (gram_curly _ _ Hg) as Hc. cbn [curly] in Hc.
    destruct its as [|it r]. { destruct Hs as [Hs|(? & Hs & _)]; [cbn in Hs; lia|discriminate]. }
    assert (Ki : kind_of_item it = tok_l_curly).
    { destruct (f_b3 _ _ _ _ F 0 it t eq_refl); [now rewrite Eb| |]; congruence. }
    destruct (Hc it r eq_refl Ki) as [Hl|(it2 & -> & Ki2)]; [exact Hl|].
    destruct (f_b3 _ _ _ _ F 1 it2 t2 eq_refl); [now rewrite Eb| |]; congruence.
Qed.
Ltac las := repeat (apply Forall_cons; [unfold la; auto|]); apply Forall_nil.
Lemma f_expr : good_fun QExpr (parseExpr rec).
Proof.
  intros c Hp. pose proof Hp as [HJ Hm]. unfold parseExpr.
  assert (S0 : seen c c 0). { constructor; auto. exists []. rewrite app_nil_r. split; auto. intros []; auto. }
  C. eapply (r_peekk_n 0 [] (cbuf c) c c); auto. intros t0 c0 bf0 S1 E0. cbn [app] in E0.
  destruct (tk t0) eqn:K0; try (eapply (f_expr_call c c0 0 _ []); eauto; lia).
  - (* let *) C. eapply (r_peekk_n 1 [t0] bf0 c c0); auto. { constructor; auto. unfold la. auto. }
    intros t1 c1 bf1 S2 E1. destruct (tkind_beq (tk t1) tok_l_curly); eapply (f_expr_call c c1 1 _ []); eauto; lia.
  - (* id *) C. eapply (r_peekk_n 1 [t0] bf0 c c0); auto. { constructor; auto. unfold la. auto. }
    intros t1 c1 bf1 S2 E1. destruct (tk t1); eapply (f_expr_call c c1 1 _ []); eauto; lia.
  - (* { *) C. eapply (r_peekk_n 1 [t0] bf0 c c0); auto. { constructor; auto. unfold la. auto. }
    intros t1 c1 bf1 S2 E1. destruct (tk t1) eqn:K1; try (eapply (f_expr_call c c1 1 _ []); eauto; lia).
    + (* { id *) C. eapply (r_peekk_n 2 [t0; t1] bf1 c c1); auto. { las. }
      intros t2 c2 bf2 S3 E2.
      assert (D : forall q, match q with QIf | QAssert | QLet | QLegacyLet | QWith | QLambda | QOp _ | QAttrs => True | _ => False end ->
        cl (rec q) c2 (post0 src QExpr c)).
      { intros q Hq. eapply (f_expr_call c c2 2 q [t0]); eauto. { eexists. exact E2. } right. left. cbn. now rewrite K0. }
      destruct (tk t2) eqn:K2; try (apply D; exact I). clear D. C.
      eapply (r_peekk_n 3 [t0; t1; t2] bf2 c c2); auto. { las. }
      intros t3 c3 bf3 S4 E3.
      assert (D : forall q, match q with QIf | QAssert | QLet | QLegacyLet | QWith | QLambda | QOp _ | QAttrs => True | _ => False end ->
        cl (rec q) c3 (post0 src QExpr c)).
      { intros q Hq. eapply (f_expr_call c c3 3 q [t0; t1]); eauto. { eexists. exact E3. } right. right. cbn. now rewrite K0, K1. }
      destruct (tk t3); apply D; exact I.
    + (* { } *) C. eapply (r_peekk_n 2 [t0; t1] bf1 c c1); auto. { las. }
      intros t2 c2 bf2 S3 E2.
      assert (D : forall q, match q with QIf | QAssert | QLet | QLegacyLet | QWith | QLambda | QOp _ | QAttrs => True | _ => False end ->
        cl (rec q) c2 (post0 src QExpr c)).
      { intros q Hq. eapply (f_expr_call c c2 2 q [t0]); eauto. { eexists. exact E2. } right. left. cbn. now rewrite K0. }
      destruct (tk t2); apply D; exact I.
Qed.
End Fun.
