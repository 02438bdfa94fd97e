(** For C68: the parsing functions, fourth part. *)
From Verif Require Import Base Diag LexModel LexSpec LexProofs AstModel PSupModel SemaModel ParseModel ParseSpec
  ParseInv GramSpec GramBase GramMono GramStep GramPost GramFun3.
From Verif Require ParseFun7.

Section Fun.
Context {Qt : Quiet}.
Variable src : bytes.
Notation G := (gram_at false (located src)).
Variable rec : nt -> P (option node).
Hypothesis Mrec : forall q, mono (rec q).
Hypothesis Rec : forall q c, pre src q c -> cl (rec q) c (post src q c).
Notation J := (J src). Notation fl := (fl src).
Notation good_fun q m := (forall c, pre src q c -> cl m c (post0 src q c)).

Lemma f_string ind : good_fun (QString ind) (parseString src rec ind).
Proof.
  start. unfold parseString.
  set (qk := if ind then tok_quote2 else tok_dquote).
  set (m := if ind then PS_IndString else PS_String).
  assert (Hq : ~ la qk) by (unfold qk; destruct ind; unfold la; intuition congruence).
  assert (Hne : m <> PS_Expr) by (unfold m; destruct ind; discriminate).
  C. C. C. C. C. kbeq.
  destruct (alone src c0 t bf (fl_J _ _ _ _ F0) Eb) as [E2 T2]. { left. congruence. }
  C. C. C. C. apply cl_withState; [M3|].
  assert (J2 : J (pop t c0)) by exact (fl_J _ _ _ _ F).
  set (c2 := push src m (pop t c0)).
  assert (J3 : J c2) by (apply J_push; auto).
  assert (Hm2 : cmode c2 = m) by reflexivity.
  assert (F3 : fl c2 [] c2) by (apply fl_refl; exact J3).
  assert (T3 : tight c2) by (apply push_tight; auto).
  C. eapply r_lCur; [exact F3|]. intros t3 c3 bf3 F4 Eb3 P3.
  pose proof (pk_tight src _ _ _ J3 P3 ltac:(congruence) T3) as T4. clear F3. pose proof (fl_mode _ _ _ _ F4) as M4.
  C. R Rec. { split; [exact (fl_J _ _ _ _ F4)|]. split; [congruence|exact T4]. }
  intros [p|] c5 H5; [|destruct H5]. cbn [post post0] in H5.
  destruct (H5 [] (g_parts_nil _ _ _)) as (i & r & fs & i5 & -> & F5 & G5 & T5). mg F5. rewrite M4, Hm2 in G5.
  C. eapply r_expect; [exact F0|]. intros t6 c6 bf6 F6 Eb6 K6 P6.
  pose proof (fl_mode _ _ _ _ F6) as M6.
  assert (T6 : tight c6).
  { refine (pk_tight src _ _ _ (fl_J _ _ _ _ F0) P6 _ T5). rewrite (fl_mode _ _ _ _ F0). congruence. }
  clear F0.
  C. eapply r_consume_glued; [exact F6|exact T6|exact Eb6|]. intros F7 _. clear F6.
  repeat C. split. { rewrite (f_modes _ _ _ _ F7). unfold c2. now rewrite push_modes. }
  pose proof (fl_state _ _ _ _ _ _ _ (fun X => @nil_cons _ _ _ (eq_sym X)) F E2 F7) as F8. rewrite M6, Hm2, K6 in F8.
  cbn [post post0]. eexists; split; [exact F8|]. subst qk m. destruct ind.
  - eapply eq_gram; [eapply g_indented; exact G5|]. cbn [app]. asc.
  - eapply eq_gram; [eapply g_dquoted; exact G5|]. asc.
Qed.

(** * Paths *)
Lemma spelled_fixed_path k v : spelled PS_Path k v ->
  k = tok_path_fragment \/ (k = tok_path_end /\ v = []) \/ (k = tok_dollar_curly /\ v = b "${").
Proof. intros H. inversion H; subst; auto. Qed.

Lemma f_pathloop b0 acc : good_fun (QPathLoop b0 acc) (parseExprPathLoop rec b0 acc).
Proof.
  intros c [HJ (Hm & Eb & Hs)]. assert (F : fl c [] c) by (apply fl_refl; exact HJ). unfold parseExprPathLoop.
  C. eapply r_peek; [exact F|]. intros t c1 bf F1 Eb1 P1. clear F. pose proof (fl_mode _ _ _ _ F1) as M1.
  cbv zeta.
  assert (Tok : tokok src PS_Path t).
  { rewrite <- Hm, <- M1. eapply J_tok; eauto using fl_J. }
  assert (Kp : tk t = tok_path_fragment \/ (tk t = tok_path_end /\ tview t = []) \/ (tk t = tok_dollar_curly /\ tview t = b "${")).
  { destruct Tok as (_ & [Sp|[? _]] & _); [now apply spelled_fixed_path|discriminate]. }
  assert (Nl : ~ la (tk t)) by (unfold la; intuition congruence).
  destruct (alone src c1 t bf (fl_J _ _ _ _ F1) Eb1 (or_introl Nl)) as [E2 T2].
  assert (Step : exists it, fl c [it] (pop t c1) /\
    forall i0, (acc = [] /\ i0 = []) \/ (acc <> [] /\ G (Frags false (flatten acc)) i0) ->
      G (Frags true (flatten (acc ++ [inl (tview t)]))) (i0 ++ [it])).
  { destruct Hs as [[-> Hp]|[Hn Ht]].
    - pose proof (pk_path _ _ _ P1 Eb Hm Hp) as K. exists (It false PS_Path (tk t) (tview t)). split.
      + change [It false PS_Path (tk t) (tview t)] with ([] ++ [It false PS_Path (tk t) (tview t)]).
        eapply fl_trans; [exact F1|]. rewrite <- Hm, <- M1. eapply pop_fl; eauto using fl_J. discriminate.
      + intros i0 [[_ ->]|[H _]]; [|congruence]. rewrite K. unfold flatten. cbn [app flat_map]. rewrite app_nil_r.
        apply g_frags_first.
    - exists (It true PS_Path (tk t) (tview t)). split.
      + change [It true PS_Path (tk t) (tview t)] with ([] ++ [It true PS_Path (tk t) (tview t)]).
        eapply fl_trans; [exact F1|]. rewrite <- Hm, <- M1. eapply pop_fl; eauto using fl_J.
        intros _. refine (pk_tight src _ _ _ HJ P1 _ Ht). congruence.
      + intros i0 [[? _]|[_ G0]]; [congruence|]. rewrite flatten_app. unfold flatten at 2. cbn [flat_map]. rewrite app_nil_r.
        destruct Kp as [->|[[-> ->]|[-> ->]]].
        * now apply g_frags_text.
        * cbn [map]. rewrite app_nil_r. now apply g_frags_end.
        * now apply g_frags_dollar. }
  destruct Step as (it & F2 & St). C. eapply cl_consume; [exact Eb1|].
  C. eapply r_peekk; [exact F2|]. intros t3 c3 bf3 F3 Eb3 P3.
  destruct (tk t3) eqn:K3; repeat C.
  - R Rec. { split; [exact (fl_J _ _ _ _ F3)|exact I]. }
    intros [n|] c4 H4; cbn [post post0] in H4; [|destruct H4]. pose proof (fl_mode _ _ _ _ F3) as M3.
    destruct (H4 true) as ((i4 & F4 & G4) & E4 & T4).
    { intros _. split; [|congruence]. refine (pk_tight src _ _ _ (fl_J _ _ _ _ F2) P3 _ T2).
      rewrite (fl_mode _ _ _ _ F2). congruence. }
    rewrite M3, Hm in G4. clear F2. pose proof (fl_trans _ _ _ _ _ _ F3 F4) as F5.
    assert (Hne : (acc ++ [inl (tview t)]) ++ [inr n] <> []) by (intros X; now apply app_eq_nil in X as [_ X]).
    R Rec. { split; [exact (fl_J _ _ _ _ F5)|]. split; [|split; [exact E4|right; split; [exact Hne|exact T4]]].
      rewrite (fl_mode _ _ _ _ F5). exact Hm. }
    intros [m|] c6 H6; cbn [post post0] in *; [|destruct H6]. intros i0 Hi0.
    destruct (H6 (i0 ++ [it] ++ i4)) as (i & r & ip & fs & i6 & -> & F6 & N6 & G6).
    { right. split; [exact Hne|]. rewrite flatten_app. change (flatten [inr n]) with [@inr ascii node n]. rewrite app_assoc. apply g_frags_interp; auto. }
    exists i, r, ip, fs, (([it] ++ i4) ++ i6). split; [reflexivity|]. split; [eapply fl_trans; eauto|].
    split; [discriminate|]. eapply eq_gram; [exact G6|asc].
  - cbn [post post0]. intros i1 Hi1. eexists _, _, _, _, _. split; [reflexivity|]. split; [exact F3|]. split; [discriminate|].
    rewrite flatten_merge. auto.
Qed.
Lemma f_path : good_fun QPath (parseExprPath src rec).
Proof.
  start. unfold parseExprPath. C. C. C. C. kbeq.
  assert (bf = []) as ->. { refine (J_alone _ _ _ _ (fl_J _ _ _ _ F0) Eb _). rewrite H. unfold la. intuition congruence. }
  pose proof (fl_J _ _ _ _ F0) as J0.
  apply cl_withState; [M3|]. set (c2 := push src PS_Path c0). assert (J2 : J c2) by (apply J_push; auto).
  R Rec.
  { split; [exact J2|]. split; [reflexivity|]. split; [apply push_buf|]. left. split; [reflexivity|].
    assert (Er : crest c2 = skipn (off (lcur (trange t))) src).
    { unfold c2, push, resetc. rewrite Eb. reflexivity. }
    intros l El. pose proof (J_tok _ _ _ _ J0 Eb) as Tk. rewrite (fl_mode _ _ _ _ F0), Hm in Tk.
    pose proof (j_good _ _ J2) as G2.
    assert (Ec : ccur c2 = lcur (trange t)). { unfold c2, push, resetc. rewrite Eb. reflexivity. }
    assert (Hr : exists q, rest l = tview t ++ q).
    { rewrite El, Er. destruct Tk as ((_ & _ & Hle & ->) & _). exists (skipn (off (rcur (trange t))) src). now apply skipn_split. }
    clear - Hr Tk H. destruct Hr as [q Hr]. destruct Tk as (_ & Sp & _). rewrite H in Sp. destruct Sp as [Sp|[_ Sp]].
    - remember (tview t) as v eqn:Ev. clear Ev. inversion Sp; subst.
      + match goal with X : In _ documented |- _ => unfold documented in X; simpl in X; repeat (destruct X as [X|X]; [discriminate|]); destruct X end.
      + destruct w as [|x w]; cbn [app] in Hr.
        * eapply ParseFun7.lexPath_start; [exact Hr|reflexivity].
        * eapply ParseFun7.lexPath_start; [exact Hr|]. apply ParseFun7.path_class. eapply Forall_inv; eauto.
      + eapply ParseFun7.lexPath_home; eauto.
    - unfold odd_token in Sp. destruct Sp as [[? _]|[? _]]; discriminate. }
  intros [n|] c3 H3; cbn [post post0] in H3; [|destruct H3].
  destruct (H3 [] (or_introl (conj eq_refl eq_refl))) as (i & r & ip & fs & its & -> & F3 & N3 & G3).
  split. { rewrite (f_modes _ _ _ _ F3). unfold c2. now rewrite push_modes. }
  pose proof (fl_path src _ _ _ _ J0 Eb H N3 F3) as F4. mg F4. cbn [post post0]. ext. apply g_path. exact G3.
Qed.
End Fun.
