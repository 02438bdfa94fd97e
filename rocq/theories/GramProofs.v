(** For C68 and C72: every request, and the whole document. *)
From Verif Require Import Base Diag LexModel LexSpec LexProofs AstModel PSupModel SemaModel ParseModel ParseSpec
  ParseInv GramSpec GramBase GramMono GramStep GramPost GramFun1 GramFun2 GramFun3 GramFun4 GramFun5.
From Verif Require ParseStep ParseProofs.

Section Doc.
Context {Qt : Quiet}.
Variable src : bytes.
Notation J := (J src). Notation fl := (fl src).
Notation G := (gram_at false (located src)).

Lemma step_good rec : (forall q, mono (rec q)) -> (forall q c, pre src q c -> cl (rec q) c (post src q c)) ->
  forall q c, pre src q c -> cl (step src rec q) c (post0 src q c).
Proof.
  intros Mr Hr q. destruct q; cbn [step].
  - now apply f_expr.
  - now apply f_op.
  - now apply f_oploop.
  - now apply f_app.
  - now apply f_apploop.
  - now apply f_select.
  - now apply f_simple.
  - now apply f_paren.
  - now apply f_list.
  - now apply f_listloop.
  - now apply f_string.
  - now apply f_parts.
  - now apply f_path.
  - now apply f_pathloop.
  - now apply f_interp.
  - now apply f_attrname.
  - now apply f_attrpath.
  - now apply f_attrpathloop.
  - now apply f_binding.
  - now apply f_inherit.
  - now apply f_inheritloop.
  - now apply f_binds.
  - now apply f_bindsloop.
  - now apply f_attrs.
  - now apply f_if.
  - now apply f_assert.
  - now apply f_let.
  - now apply f_legacylet.
  - now apply f_with.
  - now apply f_formal.
  - now apply f_formals.
  - now apply f_formalsloop.
  - now apply f_lambdaarg.
  - now apply f_lambda.
Qed.

(** * Where the text of a node is *)
Lemma slice_split lo m hi : lo <= m -> m <= hi -> hi <= List.length src -> slice src lo hi = slice src lo m ++ slice src m hi.
Proof.
  intros H1 H2 H3. unfold slice. replace (hi - lo) with ((m - lo) + (hi - m)) by lia.
  rewrite <- (firstn_skipn (m - lo) (firstn (m - lo + (hi - m)) (skipn lo src))) at 1.
  rewrite firstn_firstn, skipn_firstn_comm. replace (Nat.min (m - lo) (m - lo + (hi - m))) with (m - lo) by lia.
  replace (m - lo + (hi - m) - (m - lo)) with (hi - m) by lia. f_equal. f_equal.
  rewrite skipn_skipn_. f_equal. lia.
Qed.
Lemma seq_le lo its hi : seq src lo its hi -> lo <= hi.
Proof. induction 1; auto. match goal with H : gap _ _ _ |- _ => destruct H end. lia. Qed.
Lemma seq_laid lo its hi : seq src lo its hi -> lo <= List.length src ->
  hi <= List.length src /\ laid false its (slice src lo hi) (skipn hi src).
Proof.
  induction 1 as [lo|lo g m k v its hi l0 l1 Hg Hgl Hle Hl1 Hv Hs Hlg Hsq IH]; intros Hlo.
  - split; auto. unfold slice. rewrite Nat.sub_diag. constructor.
  - destruct (IH Hl1) as [Hhi HL]. split; auto. pose proof (seq_le _ _ _ Hsq) as Hle2. destruct Hg as [Hg1 Hg2].
    rewrite (slice_split lo l0 hi), (slice_split l0 l1 hi) by lia. rewrite Hv. constructor; auto.
    + rewrite <- Hv, app_assoc. rewrite <- (slice_split l0 l1 hi), <- skipn_split by lia. exact Hg2.
    + intros [Eg|[=]]. rewrite (Hgl Eg). unfold slice. now rewrite Nat.sub_diag.
    + now rewrite <- skipn_split by lia.
Qed.
Lemma first_spans n p its hi : first_at src p its hi -> off (nl n) = p -> off (nr n) = hi -> spans src n its.
Proof.
  intros (g & m & k & v & r & l1 & -> & H1 & H2 & H3 & H4 & H5 & H6) E1 E2.
  destruct (seq_laid _ _ _ H6 H2) as [H7 H8]. pose proof (seq_le _ _ _ H6) as H9.
  exists (firstn p src), (slice src p hi), (skipn hi src). split; [|split; [|split]].
  - rewrite <- skipn_split by lia. symmetry. apply firstn_skipn.
  - rewrite firstn_length. unfold nl in E1. lia.
  - rewrite app_length, firstn_length. unfold slice. rewrite firstn_length, skipn_length. unfold nr in E2. lia.
  - rewrite (slice_split p l1 hi), H3 by lia. apply (laid_item true g m k v r []); auto.
    + constructor.
    + now rewrite <- skipn_split by lia.
Qed.

(** the functions that look at the next token before they do anything *)
Definition looks {A} (m : P A) : Prop := forall s t s1, peek 0 s = Ok (t, s1) -> m s = m s1.
Lemma peek_again s t s1 : peek 0 s = Ok (t, s1) -> peek 0 s1 = Ok (t, s1).
Proof.
  unfold peek. intros E. destruct (fill _ s) as [[u s2]|w|]; try discriminate.
  destruct (pbuf s2) as [|x bf] eqn:Eb; [discriminate|]. cbn in E. injection E as -> <-. rewrite Eb. cbn. now rewrite Eb.
Qed.
Lemma looks_peek : looks (peek 0).
Proof. intros s t s1 E. rewrite E. symmetry. eapply peek_again; eauto. Qed.
Lemma looks_bind {A B} (m : P A) (k : A -> P B) : looks m -> looks (pbind m k).
Proof. intros H s t s1 E. unfold pbind. now rewrite (H s t s1 E). Qed.
Definition placed (q : nt) : Prop :=
  match q with QExpr | QSelect | QSimple | QAttrName | QAttrPath | QBinding | QInherit => True | _ => False end.
Lemma looks_run fuel : forall q, placed q -> looks (run src fuel q).
Proof.
  induction fuel as [|fuel IH]; intros q Hq; [intros s t s1 _; reflexivity|]. cbn [run].
  destruct q; try contradiction; cbn [step].
  - unfold parseExpr, peekk. apply looks_bind, looks_bind, looks_peek.
  - unfold parseExprSelect. apply looks_bind, IH. exact I.
  - unfold parseExprSimple. apply looks_bind, looks_peek.
  - unfold parseAttrName. apply looks_bind, looks_peek.
  - unfold parseAttrPath. apply looks_bind, IH. exact I.
  - unfold parseBinding. apply looks_bind, IH. exact I.
  - unfold parseInherit. apply looks_bind, looks_peek.
Qed.
Lemma run_peeks fuel s : forall q a s', placed q -> run src fuel q s = Ok (a, s') -> exists t s1, peek 0 s = Ok (t, s1).
Proof.
  induction fuel as [|fuel IH]; intros q a s' Hq E; [discriminate|]. cbn [run] in E.
  assert (B : forall q' (k : option node -> P (option node)), placed q' -> pbind (run src fuel q') k s = Ok (a, s') ->
    exists t s1, peek 0 s = Ok (t, s1)).
  { intros q' k Hq' Eb. unfold pbind in Eb. destruct (run src fuel q' s) as [[a1 s1]|w|] eqn:E1; try discriminate.
    eapply IH; eauto. }
  destruct q; try contradiction; cbn [step] in E.
  - unfold parseExpr, peekk, pbind in E. destruct (peek 0 s) as [[t s1]|w|]; try discriminate. eauto.
  - unfold parseExprSelect in E. eapply B; [|exact E]. exact I.
  - unfold parseExprSimple, pbind in E. destruct (peek 0 s) as [[t s1]|w|]; try discriminate. eauto.
  - unfold parseAttrName, pbind in E. destruct (peek 0 s) as [[t s1]|w|]; try discriminate. eauto.
  - unfold parseAttrPath in E. eapply B; [|exact E]. exact I.
  - unfold parseBinding in E. eapply B; [|exact E]. exact I.
  - unfold parseInherit, pbind in E. destruct (peek 0 s) as [[t s1]|w|]; try discriminate. eauto.
Qed.

Lemma J_Inv s : J (core s) -> diags (plex s) = [] -> Inv src s.
Proof.
  intros [H1 H2 H3 H4 H5] Hd. constructor; [exact H1|exact H2| |exact H4|now rewrite Hd].
  unfold clastp in H3. unfold lastpos, lastc. cbn in H3. now destruct (plast s).
Qed.
(** a node of a run that reports nothing starts where the next token starts and ends where the last one ends *)
Lemma run_placed fuel q s n s' :
  placed q -> silent = true -> J (core s) -> cmode (core s) = PS_Expr -> diags (plex s) = [] ->
  run src fuel q s = Ok (Some n, s') -> diags (plex s') = [] ->
  (forall p, front (core s) p -> off (nl n) = p) /\ off (nr n) = clastp (core s').
Proof.
  intros Hq Sl HJ Hm Hd E Hd'. destruct (run_peeks _ _ _ _ _ Hq E) as (t & s1 & Ep).
  rewrite (looks_run fuel q Hq s t s1 Ep) in E.
  assert (Hd1 : diags (plex s1) = []).
  { pose proof (mono_run src fuel q _ _ _ E) as Hle. rewrite !(quiet_nerr _ Sl), Hd' in Hle. now destruct (diags (plex s1)). }
  assert (Pk : pk (core s) t (core s1) /\ J (core s1)).
  { apply (cl_peek0 src (core s) (fun t c' => pk (core s) t c' /\ J c') HJ (fun t c' a b => conj a b) s t s1 eq_refl Ep);
      [rewrite !(quiet_nerr _ Sl), Hd, Hd1; reflexivity|auto]. }
  destruct Pk as [Pk HJ1]. pose proof (J_Inv _ HJ1 Hd1) as I1.
  destruct (pk_front _ _ _ Pk) as [bf Eb]. pose proof (pk_fl src _ _ _ Pk HJ1) as F.
  assert (Hm1 : mode s1 = PS_Expr).
  { pose proof (f_modes _ _ _ _ F) as Em. unfold cmode in Hm. unfold mode. cbn [core cmodes] in *. now rewrite Em. }
  assert (Hp : ParseStep.pre src q s1) by (destruct q; try contradiction; (split; [exact Hm1|exact I])).
  pose proof (ParseProofs.run_ok src (S (ParseStep.T src q s1) + fuel) q s1 I1 Hp ltac:(lia)) as W.
  unfold wp in W. destruct (ParseProofs.run_ref src fuel (S (ParseStep.T src q s1)) q s1) as [E1|E1]; [congruence|].
  rewrite <- E1, E in W. destruct W as (I' & _ & W). split.
  - intros p Hf. assert (Hp1 : front (core s1) (off (lcur (trange t)))) by (unfold front; now rewrite Eb).
    pose proof (f_first _ _ _ _ F Sl _ Hp1) as Hf1.
    assert (Ef : p = off (lcur (trange t))).
    { unfold front in Hf, Hf1. destruct (cbuf (core s)); [|congruence]. destruct Hf as (t1 & l1 & El & ->), Hf1 as (t2 & l2 & El2 & ->). congruence. }
    subst p. pose proof (ParseStep.r_begin _ _ _ _ _ W) as Hb.
    assert (Hs : starts src s1 (nl n)) by (destruct q; try contradiction; exact Hb).
    destruct Hs as (_ & Hs & _). cbn in Eb. rewrite Hs by congruence. unfold basec. now rewrite Eb.
  - rewrite (ParseStep.r_clean _ _ _ _ _ W); [|unfold nd; now rewrite Hd']. unfold clastp, lastc. cbn. now destruct (plast s').
Qed.
Lemma place fuel q c X n : placed q -> pre src q c -> (forall its, G (X n) its -> its <> []) ->
  forall s s', core s = c -> run src fuel q s = Ok (Some n, s') -> nerr s' = nerr s -> (silent = true -> diags (plex s) = []) ->
  got src c (core s') (X n) -> got1 src c (core s') (X n) n.
Proof.
  intros Hq [HJ Hm] Hne s s' Ec E En Hd (its & F & Hg). exists its. split; auto. split; auto. intros Sl. subst c.
  assert (Hm' : cmode (core s) = PS_Expr) by (destruct q; try contradiction; exact Hm).
  destruct (run_placed fuel q s n s' Hq Sl HJ Hm' (Hd Sl) E (still_quiet _ _ Hd En Sl)) as [H1 H2].
  pose proof (f_first _ _ _ _ F Sl) as Hf. specialize (Hne its Hg). destruct its as [|x its]; [congruence|].
  destruct Hf as (p & Hp & Hf). eapply first_spans; eauto.
Qed.
Lemma ne_gram X its : G X its -> match X with Expr _ | Sel _ | Simple _ | Name _ | AttrPath _ | Bind _ => its <> [] | _ => True end.
Proof.
  intros H. apply gram_shape in H. destruct X; auto; cbn [shape] in H; intros ->; cbn in H; try lia;
    destruct H as [H|(it & H & _)]; try lia; discriminate.
Qed.
Lemma run_good fuel : forall q c, pre src q c -> cl (run src fuel q) c (post src q c).
Proof.
  induction fuel as [|fuel IH]; intros q c Hp.
  - intros s a s' _ E. discriminate E.
  - assert (H0 : cl (run src (S fuel) q) c (post0 src q c)).
    { cbn [run]. apply step_good; auto. intros. apply mono_run. }
    intros s a s' Ec E En Hd. specialize (H0 s a s' Ec E En Hd).
    destruct a as [n|]; [|destruct q; exact H0].
    destruct q; cbn [post]; try exact H0; cbn [post0] in H0.
    + eapply (place (S fuel) QExpr c Expr n); eauto; [exact I|]. intros its Hg. apply (ne_gram _ _ Hg).
    + eapply (place (S fuel) QSelect c Sel n); eauto; [exact I|]. intros its Hg. apply (ne_gram _ _ Hg).
    + eapply (place (S fuel) QSimple c Simple n); eauto; [exact I|]. intros its Hg. apply (ne_gram _ _ Hg).
    + eapply (place (S fuel) QAttrName c Name n); eauto; [exact I|]. intros its Hg. apply (ne_gram _ _ Hg).
    + destruct H0 as (i & r & ns & ds & -> & H0). exists i, r, ns, ds. split; [reflexivity|].
      eapply (place (S fuel) QAttrPath c (fun _ => AttrPath ns)); eauto; [exact I|]. intros its Hg. apply (ne_gram _ _ Hg).
    + eapply (place (S fuel) QBinding c Bind n); eauto; [exact I|]. intros its Hg. apply (ne_gram _ _ Hg).
    + eapply (place (S fuel) QInherit c Bind n); eauto; [exact I|]. intros its Hg. apply (ne_gram _ _ Hg).
Qed.

(** from offsets to text *)
Lemma seq_layout lo its hi : seq src lo its hi -> forall e, gap src hi e -> e = List.length src ->
  lo <= List.length src -> layout its (skipn lo src).
Proof.
  induction 1 as [lo|lo g m k v its hi l0 l1 Hg Hgl Hle Hl1 Hv Hs Hlg Hsq IH]; intros e He Ee Hlo.
  - destruct He as [He1 He2]. subst e. rewrite (skipn_split src lo (List.length src)), skipn_all, app_nil_r by lia. rewrite skipn_all in He2.
    now apply layout_end.
  - destruct Hg as [Hg1 Hg2]. rewrite (skipn_split src lo l0), (skipn_split src l0 l1) by lia. rewrite Hv.
    apply layout_item; auto.
    + rewrite <- Hv. rewrite <- (skipn_split src l0 l1) by lia. exact Hg2.
    + intros Eg. rewrite (Hgl Eg). unfold slice. rewrite Nat.sub_diag. reflexivity.
    + eapply IH; eauto.
Qed.

Lemma parse_gram n s : parse_st src = Ok (Some n, s) -> nerr s = 0 ->
  exists its, layout its src /\ G (Expr n) its /\ located src n its.
Proof.
  unfold parse_st. intros E En.
  assert (HJ : J (core (pinit src))).
  { constructor; cbn.
    - exists []. split; [reflexivity|]. split; [reflexivity|]. split; [reflexivity|].
      exists [], []. split; [reflexivity|]. split; [intros []|]. split; [reflexivity|]. now left.
    - discriminate.
    - apply gap_refl.
    - discriminate.
    - constructor. }
  revert E. match goal with |- ?m _ = _ -> _ => intros E;
    enough (H : cl m (core (pinit src)) (fun r _ => forall n, r = Some n -> exists its, layout its src /\ G (Expr n) its /\ located src n its)) end.
  { exact (H _ _ _ eq_refl E ltac:(rewrite En; reflexivity) (fun _ => eq_refl) n eq_refl). }
  clear E En n s. apply cl_bind; [apply mono_run|intros; M3|].
  eapply cl_mono; [apply run_good; split; [exact HJ|reflexivity]|]. intros [n|] c H; cbn [post] in H.
  2:{ apply cl_bind; [M3|intros; M3|]. intros ? ? ? _ _ _ _. intros ? ? ? _ E _ _ n. 
      unfold pbind in E. destruct (_ : res (unit * pst)) as [[? ?]|?|] in E; try discriminate. injection E as <- <-. discriminate. }
  destruct H as (its & F & Hg & Hl). assert (Hm : cmode (core (pinit src)) = PS_Expr) by reflexivity.
  C. C. C. C; [|C]. C. C. intros n1 [= <-]. exists its. split; auto.
  change (layout its (skipn 0 src)).
  pose proof (f_seq _ _ _ _ F0) as Hs. cbn [clastp core pinit clast plast] in Hs.
  pose proof (J_tok _ _ _ _ (fl_J _ _ _ _ F0) Eb) as Tk. rewrite (fl_mode _ _ _ _ F0) in Tk.
  pose proof (j_buf _ _ (fl_J _ _ _ _ F0)) as Hb. rewrite Eb in Hb. cbn [bufok] in Hb. destruct Hb as (Gp & _).
  destruct Tk as (Tf & Sp & Te). specialize (Te eq_refl K).
  assert (Ev : tview t = []).
  { rewrite K in Sp. destruct Sp as [Sp|[_ [[Sp _]|[Sp _]]]]; try discriminate Sp. clear - Sp.
    remember (tview t) as v. clear Heqv. inversion Sp; subst; auto.
    match goal with X : In _ documented |- _ => unfold documented in X; simpl in X; repeat (destruct X as [X|X]; [discriminate|]); destruct X end. }
  destruct Tf as (_ & _ & Hle & Et). rewrite Ev in Et. eapply seq_layout; [exact Hs|exact Gp| |lia].
  rewrite Te in *. symmetry in Et. apply (f_equal (@List.length _)) in Et. unfold slice in Et.
  rewrite firstn_length, skipn_length in Et. cbn [List.length] in Et. lia.
Qed.
End Doc.

(** the grammar without, with weaker conditions on the positions *)
Lemma gram_weaken strict (at1 at2 : node -> list item -> Prop) : (forall n its, at1 n its -> at2 n its) ->
  forall X its, gram_at strict at1 X its -> gram_at strict at2 X its.
Proof. intros H X its. induction 1; solve [econstructor; solve [eauto]]. Qed.
Lemma parse_grammar src n s : parse_st src = Ok (Some n, s) -> nerr (Qt := false) s = 0 ->
  exists its, layout its src /\ gram false (Expr n) its.
Proof.
  intros E En. destruct (@parse_gram false src n s E En) as (its & H1 & H2 & _). exists its. split; auto.
  revert H2. apply gram_weaken. auto.
Qed.
Lemma parse_placed src n s : parse_st src = Ok (Some n, s) -> diags (plex s) = [] ->
  exists its, layout its src /\ gram_at false (spans src) (Expr n) its /\ spans src n its.
Proof.
  intros E En. destruct (@parse_gram true src n s E) as (its & H1 & H2 & H3).
  { rewrite (@quiet_nerr true) by reflexivity. now rewrite En. }
  exists its. split; auto. split; [|apply H3; reflexivity].
  revert H2. apply gram_weaken. intros m i Hl. apply Hl. reflexivity.
Qed.
