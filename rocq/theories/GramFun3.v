(** For C68: the parsing functions, third part: strings, paths, operators, and the choice of an expression. *)
From Verif Require Import Base Diag LexModel LexSpec LexProofs AstModel PSupModel SemaModel ParseModel ParseSpec
  ParseInv GramSpec GramBase GramMono GramStep GramPost.
From Verif Require ParseFun7.

Section Fun.
Context {Qt : Quiet}.
Variable src : bytes.
Notation G := (gram_at false (located src)).
Variable rec : nt -> P (option node).
Hypothesis Mrec : forall q, mono (rec q).
Hypothesis Rec : forall q c, pre src q c -> cl (rec q) c (post src q c).
Notation J := (J src). Notation fl := (fl src).
Notation good_fun q m := (forall c, pre src q c -> cl m c (post0 src q c)).

Lemma not_la k : k <> tok_id -> k <> tok_l_curly -> k <> tok_r_curly -> k <> tok_kw_let -> ~ la k.
Proof. unfold la. intuition. Qed.
(** the state after a token that is alone *)
Lemma alone c t bf : J c -> cbuf c = t :: bf -> (~ la (tk t) \/ List.length (cbuf c) <= 1) ->
  cbuf (pop t c) = [] /\ tight (pop t c).
Proof.
  intros HJ E H. assert (bf = []) as ->.
  { destruct H as [H|H]; [eapply J_alone; eauto|]. rewrite E in H. cbn in H. destruct bf; auto. cbn in H. lia. }
  destruct (pop_tight _ _ _ HJ E). auto.
Qed.

(** * Interpolations, strings *)
Lemma f_interp : good_fun QInterp (parseInterpolation src rec).
Proof.
  intros c [HJ _]. assert (F : fl c [] c) by (apply fl_refl; exact HJ). unfold parseInterpolation.
  C. eapply r_peek; [exact F|]. intros t c1 bf F1 Eb1 P1. C. C. kbeq. C. eapply cl_consume; [exact Eb1|].
  destruct (alone c1 t bf (fl_J _ _ _ _ F1) Eb1) as [E2 T2]. { left. apply not_la; congruence. }
  C. C. C. apply cl_withState; [M3|].
  assert (J2 : J (pop t c1)) by (eapply J_pop; eauto using fl_J).
  set (c2 := push src PS_Expr (pop t c1)).
  assert (J3 : J c2) by (apply J_push; auto).
  assert (Hm : cmode c2 = PS_Expr) by reflexivity.
  assert (F3 : fl c2 [] c2) by (apply fl_refl; exact J3).
  C. R Rec. intros e c4 H4. repeat C. destruct H4 as (i4 & F4 & G4 & L4).
  assert (B4 : List.length (cbuf c4) <= 1).
  { apply (f_b2 _ _ _ _ F4). unfold c2. rewrite push_buf. cbn. lia. }
  mg F4. eapply r_expect; [exact F0|]. intros t5 c5 bf5 F5 Eb5 K5 P5.
  assert (B5 : List.length (cbuf c5) <= 1).
  { destruct P5 as [bf6 E6|cu r E6 _ _ _]; auto. }
  destruct (alone c5 t5 bf5 (fl_J _ _ _ _ F5) Eb5 (or_intror B5)) as [E6 T6]. clear F F0.
  repeat C. split.
  { rewrite (f_modes _ _ _ _ F). unfold c2. now rewrite push_modes. }
  cbn [post post0]. intros g Hg. split; [|split; [now rewrite popm_buf|now apply popm_tight]].
  assert (Fa : fl c [It g (cmode c) tok_dollar_curly (tview t)] (pop t c1)).
  { rewrite <- (fl_mode _ _ _ _ F1), <- H. change [It g (cmode c1) (tk t) (tview t)] with ([] ++ [It g (cmode c1) (tk t) (tview t)]).
    eapply fl_trans; [exact F1|]. eapply pop_fl; eauto using fl_J. intros Eg. specialize (Hg Eg).
    destruct Hg. exact (pk_tight _ c t c1 HJ P1 H1 H0). }
  assert (F' : fl c ([It g (cmode c) tok_dollar_curly (tview t)] ++ (i4 ++ [E tok_r_curly (tview t5)])) (popm src (pop t5 c5))).
  { eapply fl_state; [discriminate|exact Fa|exact E2|exact F]. }
  ext. apply g_interp; [exact G4|exact L4].
Qed.

Lemma f_parts b0 acc : good_fun (QParts b0 acc) (parseStringParts rec b0 acc).
Proof.
  intros c [HJ [Hm Ht]]. assert (F : fl c [] c) by (apply fl_refl; exact HJ). unfold parseStringParts.
  C. eapply r_peek; [exact F|]. intros t c1 bf F1 Eb1 P1. pose proof (pk_tight _ _ _ _ HJ P1 Hm Ht) as T1.
  pose proof (fl_mode _ _ _ _ F1) as M1. clear F.
  assert (Next : forall its c2 r (Q : nat), fl c its c2 -> tight c2 -> cl (rec (QParts b0 r)) c2
     (post src (QParts b0 r) c2)).
  { intros its c2 r _ F2 T2. apply Rec. split; [exact (fl_J _ _ _ _ F2)|]. rewrite (fl_mode _ _ _ _ F2). auto. }
  assert (Loop : forall its c2 r, fl c its c2 -> tight c2 ->
    (forall i0, G (Parts (cmode c) (flatten acc)) i0 -> G (Parts (cmode c) (flatten r)) (i0 ++ its)) ->
    cl (rec (QParts b0 r)) c2 (post0 src (QParts b0 acc) c)).
  { intros its c2 r F2 T2 Hr. eapply cl_mono; [eapply (Next its c2 r 0); eauto|]. intros [n|] c3 H3; [|destruct H3].
    cbn [post post0] in *. intros i0 G0. destruct (H3 (i0 ++ its)) as (i & r' & fs & i3 & -> & F3 & G3 & T3).
    { rewrite (fl_mode _ _ _ _ F2). auto. }
    rewrite (fl_mode _ _ _ _ F2) in G3. exists i, r', fs, (its ++ i3). split; [reflexivity|].
    split; [eapply fl_trans; eauto|]. split; [|exact T3]. now rewrite app_assoc. }
  assert (Text : forall u, ~ la (tk t) ->
    (forall i0, G (Parts (cmode c) (flatten acc)) i0 -> tokok src (cmode c) t ->
       G (Parts (cmode c) (flatten u)) (i0 ++ [It true (cmode c) (tk t) (tview t)])) ->
    cl (do! consume in rec (QParts b0 u)) c1 (post0 src (QParts b0 acc) c)).
  { intros u Hl Hu. C. eapply r_consume_glued; [exact F1|exact T1|exact Eb1|]. intros F2 T2. rewrite M1 in *.
    destruct (alone c1 t bf (fl_J _ _ _ _ F1) Eb1 (or_introl Hl)) as [_ T3].
    eapply Loop; [exact F2|exact T3|]. auto. }
  destruct (tk t) eqn:K; try (repeat C; cbn [post post0]; intros i0 G0; eexists _, _, _, []; split; [reflexivity|];
    split; [exact F1|]; split; [|exact T1]; rewrite flatten_merge, app_nil_r; exact G0).
  - apply Text; [unfold la; intuition congruence|]. intros i0 G0 _. rewrite flatten_app. unfold flatten at 2. cbn [flat_map].
    rewrite app_nil_r. now apply g_parts_text.
  - apply Text; [unfold la; intuition congruence|]. intros i0 G0 (_ & Sp & _). rewrite K in Sp.
    destruct Sp as [Sp|[? _]]; [|contradiction].
    remember (tview t) as v eqn:Ev. clear Ev. clear M1 Next Loop Text. remember (cmode c) as m eqn:Em. clear Em.
    assert (Hs : forall x, flatten (acc ++ [inl [x]]) = flatten acc ++ map inl [x]).
    { intros x. rewrite flatten_app. reflexivity. }
    inversion Sp; subst; [congruence|..]; cbn [unescape].
    + assert (Hb : unescape ["\"%char; c0] = [backslash c0]).
      { unfold backslash. cbn [unescape]. destruct (Ascii.eqb c0 "n"); auto. destruct (Ascii.eqb c0 "r"); auto.
        destruct (Ascii.eqb c0 "t"); auto. }
      cbn [unescape] in Hb. rewrite Hb, Hs. apply g_parts_escape; [exact G0|apply esc_dquoted].
    + change (unescape (b "''$")) with (b "'"). cbn. rewrite Hs. now apply g_parts_escape_ind.
    + change (unescape (b "'''")) with (b "'"). cbn. rewrite Hs. now apply g_parts_escape_ind.
    + change (unescape (b "''\" ++ [c0])) with (b "'"). cbn. rewrite Hs. now apply g_parts_escape_ind.
  - C. R Rec. { split; [exact (fl_J _ _ _ _ F1)|exact I]. }
    intros [n|] c2 H2; cbn [post post0] in H2; [|destruct H2]. destruct (H2 true) as ((i2 & F2 & G2) & E2 & T2).
    { rewrite M1. auto. }
    rewrite M1 in G2. eapply Loop; [eapply fl_trans; eauto|exact T2|]. intros i0 G0. rewrite flatten_app.
    cbn [flatten flat_map app]. now apply g_parts_interp.
Qed.
End Fun.
