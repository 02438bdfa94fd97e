(** For C47, C50, C51: putting texts of items together. *)
From Verif Require Import Base Diag LexModel LexSpec LexProofs LexLongSpec AstModel PSupModel ParseModel NavModel ConnModel ActModel
  ReadTools ReadString GramSpec BindSpec BindLaid.

Lemma laid_loose tg its t more : laid tg its t more -> laid false its t more.
Proof. destruct 1; [constructor|]. apply laid_item; auto. intros [?|?]; [auto|discriminate]. Qed.
Lemma laid_app tg i1 t1 i2 t2 more : laid tg i1 t1 (t2 ++ more) -> laid false i2 t2 more -> (i1 <> [] \/ tg = false) ->
  laid tg (i1 ++ i2) (t1 ++ t2) more.
Proof.
  intros H. remember (t2 ++ more) as r. revert Heqr. induction H as [tg r|tg g m k v its w t r Ht Hw Hs Hl Hr IH]; intros -> H2 Hn.
  - destruct Hn as [[]| ->]; auto.
  - cbn [app]. rewrite <- !app_assoc. rewrite <- app_assoc in Ht || idtac. apply laid_item; auto.
    + now rewrite <- app_assoc.
    + now rewrite <- app_assoc.
Qed.
Lemma laid_space its t more : loose its = true -> its <> [] -> laid true its t more -> laid false its (" "%char :: t) more.
Proof.
  intros Hl Hn H. inversion H; subst; [congruence|]. cbn [loose] in Hl. destruct g; [discriminate|].
  rewrite (H1 (or_intror eq_refl)) in *. change (" "%char :: [] ++ v ++ t0) with ([" "%char] ++ v ++ t0).
  apply laid_item; auto.
  - apply trivia_blank; [now left|constructor].
  - intros [?|?]; discriminate.
Qed.

Definition extb (v v' : bytes) : bool := starts_with v v' && Nat.ltb (List.length v) (List.length v').
Lemma extb_begins v v' r : begins v' (v ++ r) -> List.length v < List.length v' -> extb v v' = true.
Proof.
  intros [x Hx] L. unfold extb. apply andb_true_iff. split; [|now apply Nat.ltb_lt]. apply starts_with_spec.
  exists (skipn (List.length v) v'). apply (f_equal (firstn (List.length v))) in Hx.
  rewrite firstn_app, Nat.sub_diag, firstn_O, app_nil_r, firstn_all in Hx.
  rewrite firstn_app in Hx. replace (List.length v - List.length v') with 0 in Hx by lia. rewrite firstn_O, app_nil_r in Hx.
  rewrite Hx at 1. symmetry. apply firstn_skipn.
Qed.
(** punctuation that begins no longer token *)
Definition only (v : bytes) : bool := forallb (fun kv => negb (extb v (snd kv))) documented.
Definition other_kinds : list tkind := [tok_int; tok_float; tok_uri; tok_path_fragment; tok_unknown].
Lemma tok_laid k v more : In (k, v) documented -> ~ In k other_kinds -> (In k word_kinds -> ~ next id_char more) ->
  (forall k' v', In (k', v') documented -> begins v' (v ++ more) -> List.length v' <= List.length v) ->
  laid true [E k v] v more.
Proof.
  intros Hd Hk Hw Hl. rewrite <- (app_nil_r v) at 2. change (v ++ []) with ([] ++ v ++ []). apply laid_item; auto.
  - constructor.
  - left. now apply sp_fixed.
  - cbn [longest app]. split; [|split; [exact Hw|]].
    + intros k' v' H1 H2. split; [eapply Hl; eauto|]. intros ->. apply Hk. cbn. tauto.
    + repeat split; intros ->; exfalso; apply Hk; cbn; tauto.
  - constructor.
Qed.
Lemma only_laid k v more : In (k, v) documented -> ~ In k other_kinds -> ~ In k word_kinds -> only v = true ->
  laid true [E k v] v more.
Proof.
  intros Hd Hk Hw Ho. apply tok_laid; auto. intros k' v' H1 H2.
  destruct (Nat.le_gt_cases (List.length v') (List.length v)) as [L|L]; auto. exfalso.
  pose proof (extb_begins _ _ _ H2 L) as X. unfold only in Ho. rewrite forallb_forall in Ho. specialize (Ho _ H1). cbn [snd] in Ho.
  rewrite X in Ho. discriminate.
Qed.

Ltac indoc := unfold documented; repeat (first [left; reflexivity | right]).
Ltac notin := let H := fresh in intros H; cbn in H; intuition discriminate.
Lemma laid_semi more : laid true [E tok_semi_colon (b ";")] (b ";") more.
Proof. apply only_laid; [indoc|notin|notin|reflexivity]. Qed.
Lemma laid_lparen more : laid true [E tok_l_paren (b "(")] (b "(") more.
Proof. apply only_laid; [indoc|notin|notin|reflexivity]. Qed.
Lemma laid_rparen more : laid true [E tok_r_paren (b ")")] (b ")") more.
Proof. apply only_laid; [indoc|notin|notin|reflexivity]. Qed.
Lemma laid_lcurly more : laid true [E tok_l_curly (b "{")] (b "{") more.
Proof. apply only_laid; [indoc|notin|notin|reflexivity]. Qed.
Lemma laid_rcurly more : laid true [E tok_r_curly (b "}")] (b "}") more.
Proof. apply only_laid; [indoc|notin|notin|reflexivity]. Qed.
Lemma laid_quote more : laid true [E tok_dquote (b """")] (b """") more.
Proof. apply only_laid; [indoc|notin|notin|reflexivity]. Qed.
Lemma no_longer v c0 more : forallb (fun kv => negb (extb v (snd kv)) || negb (starts_with (v ++ [c0]) (snd kv))) documented = true ->
  forall k' v', In (k', v') documented -> begins v' (v ++ c0 :: more) -> List.length v' <= List.length v.
Proof.
  intros Ho k' v' H1 H2. destruct (Nat.le_gt_cases (List.length v') (List.length v)) as [L|L]; auto. exfalso.
  pose proof (extb_begins _ _ _ H2 L) as X. rewrite forallb_forall in Ho. specialize (Ho _ H1). cbn [snd] in Ho.
  rewrite X in Ho. cbn in Ho. destruct (begins_past _ _ _ _ H2 L) as [y ->].
  replace (v ++ c0 :: y) with ((v ++ [c0]) ++ y) in Ho by now rewrite <- app_assoc.
  assert (Y : starts_with (v ++ [c0]) ((v ++ [c0]) ++ y) = true) by (apply starts_with_spec; now exists y). rewrite Y in Ho. discriminate.
Qed.
Lemma laid_eq more : laid true [E tok_eq (b "=")] (b "=") (" "%char :: more).
Proof. apply tok_laid; [indoc|notin|notin|]. apply no_longer. reflexivity. Qed.
Lemma not_id c : isIdentifierChar c = false -> ~ id_char c.
Proof. destruct c as [[|] [|] [|] [|] [|] [|] [|] [|]]; vm_compute; try discriminate; intros _; intuition discriminate. Qed.
Lemma laid_inherit more : laid true [E tok_kw_inherit (b "inherit")] (b "inherit") (" "%char :: more).
Proof. apply tok_laid; [indoc|notin| |]. { intros _. now apply not_id. } apply no_longer. reflexivity. Qed.
Lemma laid_dot c more : c <> "."%char -> laid true [E tok_dot (b ".")] (b ".") (c :: more).
Proof.
  intros Hc. apply tok_laid; [indoc|notin|notin|]. intros k' v' H1 H2.
  destruct (Nat.le_gt_cases (List.length v') 1) as [L|L]; auto. exfalso.
  assert (X : forallb (fun kv => negb (extb (b ".") (snd kv)) || starts_with (b "..") (snd kv)) documented = true) by reflexivity.
  pose proof (extb_begins (b ".") _ _ H2 L) as Y. rewrite forallb_forall in X. specialize (X _ H1). cbn [snd] in X.
  rewrite Y in X. cbn [negb orb] in X. apply starts_with_spec in X as [y ->]. destruct H2 as [z H2]. cbn in H2. injection H2 as H2 _. congruence.
Qed.

(** * Where the text of a node ends *)
Lemma laid_snoc tg a g m k v t more : laid tg (a ++ [It g m k v]) t more ->
  exists t0, t = t0 ++ v /\ (spelled m k v \/ (m = PS_Expr /\ odd_token k v)).
Proof.
  intros H. remember (a ++ [It g m k v]) as its. revert a Heqits.
  induction H as [tg r|tg g' m' k' v' its w t r Ht Hw Hs Hl Hr IH]; intros a E'.
  - destruct a; discriminate.
  - destruct a as [|i a].
    + injection E' as -> -> -> -> ->. inversion Hr; subst. exists w. rewrite app_nil_r. auto.
    + injection E' as <- E'. destruct (IH _ E') as (t0 & -> & X). exists (w ++ v' ++ t0). now rewrite <- !app_assoc.
Qed.
Lemma tailok_snoc c0 a g m k v : v <> [] -> follows m k c0 -> tailok c0 (a ++ [It g m k v]).
Proof.
  intros Hv Hf. induction a as [|[g' m' k' v'] a IH]; cbn [app tailok].
  - auto.
  - split; auto. intros X. rewrite Forall_app in X. destruct X as [_ X]. inversion X; subst. contradiction.
Qed.
Lemma follows_ends m k c0 : In c0 ends -> follows m k c0.
Proof.
  intros H. assert (X : ~ id_char c0 /\ ~ LexSpec.digit c0 /\ c0 <> "."%char /\ ~ uri_char c0 /\ ~ In c0 (b "$'\") /\ ~ path_char c0 /\ c0 <> "/"%char /\ c0 <> "$"%char).
  { unfold ends in H. cbn in H. destruct H as [<-|[<-|[<-|[]]]]; repeat split; try notin; try discriminate. }
  unfold follows. destruct m; auto; intuition.
Qed.
Lemma tailok_ends c0 its : In c0 ends -> tailok c0 its.
Proof. intros H. induction its as [|[g m k v] its IH]; cbn; auto using follows_ends. Qed.

Definition dot_end (m : pmode) (k : tkind) : Prop :=
  (m = PS_Expr /\ In k [tok_id; tok_kw_or; tok_r_paren; tok_r_curly; tok_r_bracket]) \/ (m = PS_String /\ k = tok_dquote).
Definition dot_ok (its : list item) : Prop := exists a g m k v, its = a ++ [It g m k v] /\ dot_end m k.
Lemma id_not_dot v : Forall id_char v -> ~ ends_dot v.
Proof.
  intros H [x ->]. rewrite Forall_app in H. destruct H as [_ H]. inversion H as [|? ? Hd]; subst. apply (not_id "."); [reflexivity|exact Hd].
Qed.
Lemma id_start_char c : id_start c -> id_char c.
Proof. unfold id_start, id_char, one_of. rewrite !in_app_iff. intros [H|[H|H]]; auto. cbn in H. destruct H as [<-|[]]. cbn. tauto. Qed.
Lemma dot_end_text m k v : dot_end m k -> spelled m k v \/ (m = PS_Expr /\ odd_token k v) -> v <> [] /\ ~ ends_dot v.
Proof.
  intros [[-> Hk]|[-> ->]] [Hs|[Hm Hs]]; try discriminate Hm.
  - inversion Hs; subst; try solve [exfalso; cbn in Hk; intuition discriminate].
    + assert (X : forallb (fun kv => negb (existsb (tkind_beq (fst kv)) [tok_id; tok_kw_or; tok_r_paren; tok_r_curly; tok_r_bracket]) ||
        (negb (existsb (Ascii.eqb ".") (snd kv)) && match snd kv with [] => false | _ => true end)) documented = true) by reflexivity.
      rewrite forallb_forall in X. specialize (X _ H). cbn [fst snd] in X. apply orb_true_iff in X as [X|X].
      * exfalso. apply negb_true_iff in X. assert (Y : existsb (tkind_beq k) [tok_id; tok_kw_or; tok_r_paren; tok_r_curly; tok_r_bracket] = true).
        { apply existsb_exists. exists k. split; auto. now apply internal_tkind_dec_lb. } rewrite X in Y. discriminate.
      * apply andb_true_iff in X as [X1 X2]. split; [now destruct v|]. intros [x ->]. rewrite existsb_app in X1. cbn in X1.
        rewrite orb_true_r in X1. discriminate.
    + split; [discriminate|]. apply id_not_dot. constructor; auto. now apply id_start_char.
  - exfalso. destruct Hs as [[-> _]|[-> _]]; cbn in Hk; intuition discriminate.
  - inversion Hs; subst. split; [discriminate|]. intros [x X]. destruct x as [|? [|]]; discriminate.
Qed.
Lemma dot_follows m k : dot_end m k -> follows m k ".".
Proof.
  intros [[-> Hk]|[-> ->]]; cbn [follows]; auto. split; [|repeat split; intros ->; exfalso; cbn in Hk; intuition discriminate].
  intros _. now apply not_id.
Qed.

Section G.
Context {strict : bool} {at_ : node -> list item -> Prop}.
Notation G := (gram_at strict at_).
(** what may follow: the end of an expression, or a dot *)
Lemma place_end X its t z c0 r : G X its -> fits X its = good its -> laid true its t z -> In c0 ends -> laid true its t (c0 :: r).
Proof.
  intros Hg Hf Hl Hc. pose proof (gram_good _ _ Hg) as H. rewrite Hf in H. destruct H.
  eapply laid_ctx; eauto using tailok_ends.
Qed.
Lemma place_dot X its t z r : G X its -> fits X its = good its -> laid true its t z -> dot_ok its -> laid true its t ("."%char :: r).
Proof.
  intros Hg Hf Hl (a & g & m & k & v & -> & He). pose proof (gram_good _ _ Hg) as H. rewrite Hf in H. destruct H.
  destruct (laid_snoc _ _ _ _ _ _ _ _ Hl) as (t0 & -> & Hs). destruct (dot_end_text _ _ _ He Hs) as [Hv Hd].
  eapply laid_ctx; eauto.
  - apply tailok_snoc; auto using dot_follows.
  - right. split; auto. intros [x XX]. destruct v as [|y v _] using rev_ind; [congruence|]. apply Hd.
    rewrite app_assoc in XX. apply app_inj_tail in XX as [_ ->]. now exists v.
Qed.
Lemma dot_app a c : dot_ok c -> dot_ok (a ++ c).
Proof. intros (x & g & m & k & v & -> & H). exists (a ++ x), g, m, k, v. now rewrite app_assoc. Qed.
Lemma dot_one g m k v : dot_end m k -> dot_ok [It g m k v].
Proof. intros H. now exists [], g, m, k, v. Qed.
Ltac de := first [left; split; [reflexivity|cbn; tauto] | right; split; reflexivity].
Lemma dot_name n its : G (Name n) its -> dot_ok its.
Proof.
  intros H. inversion H; subst.
  - apply dot_one. de.
  - apply dot_one. de.
  - inversion H1; subst. rewrite app_assoc. apply dot_app, dot_one. de.
  - inversion H1; subst. rewrite app_assoc. apply dot_app, dot_one. de.
Qed.
Lemma dot_attrpath ns its : G (AttrPath ns) its -> dot_ok its.
Proof.
  intros H. inversion H; subst; [eapply dot_name; eauto|]. rewrite app_assoc. apply dot_app. eapply dot_name; eauto.
Qed.
Lemma simple_of e its : G (Expr e) its -> match e with NVar _ _ _ | NParen _ _ _ _ _ | NAttrs _ _ _ _ _ _ | NList _ _ _ | NSelect _ _ _ _ _ _ _ => True | _ => False end ->
  G (Sel e) its.
Proof.
  intros H Hd. inversion H; subst; try contradiction. clear H.
  match goal with X : gram_at _ _ (Op _) _ |- _ => inversion X; subst; try contradiction; clear X end.
  match goal with X : gram_at _ _ (App _) _ |- _ => inversion X; subst; try contradiction; clear X end. auto.
Qed.
Lemma dot_simple e its : G (Simple e) its -> dottable e = true -> dot_ok its.
Proof.
  intros H Hd. inversion H; subst; try discriminate.
  - apply dot_one. de.
  - match goal with X : gram_at _ _ (Str _ _) _ |- _ => inversion X; subst; discriminate end.
  - rewrite app_assoc. apply dot_app, dot_one. de.
  - rewrite app_assoc. apply dot_app, dot_one. de.
  - rewrite app_assoc. apply dot_app, dot_one. de.
  - rewrite app_assoc. apply dot_app, dot_one. de.
Qed.
(** the first character of an attribute name is not a dot *)
Definition name_first (its : list item) : Prop := exists k v its', its = E k v :: its' /\ In k [tok_id; tok_kw_or; tok_dquote; tok_dollar_curly].
Lemma first_name n its : G (Name n) its -> name_first its.
Proof.
  intros H. inversion H; subst; [| |inversion H1; subst|inversion H1; subst]; eexists _, _, _; (split; [reflexivity|]); cbn; tauto.
Qed.
Lemma first_attrpath ns its : G (AttrPath ns) its -> name_first its.
Proof.
  intros H. remember (AttrPath ns) as X. revert ns HeqX. induction H; intros ns' E'; try discriminate.
  - injection E' as <-. eapply first_name; eauto.
  - injection E' as <-. destruct (IHgram_at1 _ eq_refl) as (k & v0 & its' & -> & Hk). exists k, v0, (its' ++ [E tok_dot v] ++ i2). auto.
Qed.
End G.
Lemma first_text its t more : name_first its -> laid true its t more -> exists c u, t = c :: u /\ c <> "."%char.
Proof.
  intros (k & v & its' & -> & Hk) Hl. inversion Hl as [|tg g' m' k' v' its0 w t0 more0 Ht Hw HS Hlo Hr]; subst. rewrite (Hw (or_intror eq_refl)). cbn [app].
  assert (Y : exists c u, v = c :: u /\ c <> "."%char).
  { destruct HS as [Hs|[_ [[-> _]|[-> _]]]]; try solve [exfalso; cbn in Hk; intuition discriminate].
    inversion Hs; subst; try solve [exfalso; cbn in Hk; intuition discriminate].
    - assert (Z : forallb (fun kv => negb (existsb (tkind_beq (fst kv)) [tok_id; tok_kw_or; tok_dquote; tok_dollar_curly]) ||
        match snd kv with [] => false | c :: _ => negb (Ascii.eqb "." c) end) documented = true) by reflexivity.
      rewrite forallb_forall in Z. specialize (Z _ H). cbn [fst snd] in Z. apply orb_true_iff in Z as [Z|Z].
      + exfalso. apply negb_true_iff in Z. assert (Y : existsb (tkind_beq k) [tok_id; tok_kw_or; tok_dquote; tok_dollar_curly] = true).
        { apply existsb_exists. exists k. split; auto. now apply internal_tkind_dec_lb. } rewrite Z in Y. discriminate.
      + destruct v as [|c u]; [discriminate|]. exists c, u. split; auto. intros ->. discriminate.
    - exists c, w0. split; auto. intros ->. apply id_start_char in H. revert H. now apply not_id. }
  destruct Y as (c & u & -> & Hc). exists c, (u ++ t0). auto.
Qed.
