(** For C47, C50, C51: attribute names as the actions write them. *)
From Verif Require Import Base Diag LexModel LexSpec LexProofs LexLongSpec AstModel PSupModel ParseModel NavModel ConnModel ActModel
  ReadTools ReadString GramSpec BindSpec BindLaid BindText.

Lemma id_first_start c : ident_first c = true -> id_start c.
Proof. destruct c as [[|] [|] [|] [|] [|] [|] [|] [|]]; vm_compute; try discriminate; intros _; tauto. Qed.
Lemma id_rest_char c : ident_rest c = true -> id_char c.
Proof. destruct c as [[|] [|] [|] [|] [|] [|] [|] [|]]; vm_compute; try discriminate; intros _; tauto. Qed.
Lemma valid_spelled x : isValidNixIdentifier x = true -> spelled PS_Expr tok_id x.
Proof.
  unfold isValidNixIdentifier. destruct x as [|c x]; [discriminate|]. intros H.
  apply andb_prop in H as [H R]. apply andb_prop in H as [H1 H2]. apply sp_id.
  - now apply id_first_start.
  - apply Forall_forall. intros d Hd. rewrite forallb_forall in H2. now apply id_rest_char, H2.
  - intros H. apply negb_true_iff in R. assert (X : existsb (bytes_eqb (c :: x)) reserved = true); [|congruence].
    apply existsb_exists. exists (c :: x). split; [|now apply bytes_eqb_spec].
    unfold keyword_spellings in H. unfold reserved. revert H. cbn [map In]. tauto.
Qed.
(** an identifier before something that is none of it *)
Definition after_id (r : bytes) : Prop := match r with [] => False | c :: _ => In c ends \/ c = "."%char end.
Lemma ident_laid x r : spelled PS_Expr tok_id x -> after_id r -> laid true [E tok_id x] x r.
Proof.
  intros Hs Hr. assert (Hx : x <> [] /\ ~ ends_dot x) by (apply (dot_end_text PS_Expr tok_id); [left; split; cbn; tauto|auto]).
  destruct Hx as [Hn Hd]. destruct r as [|c r]; [destruct Hr|]. cbn [after_id] in Hr.
  rewrite <- (app_nil_r x) at 2. change (x ++ []) with ([] ++ x ++ []). apply laid_item; auto; [constructor| |constructor].
  cbn [longest app]. split; [|split; [|repeat split; discriminate]].
  - intros k' v' H1 H2. split; [|discriminate]. destruct (Nat.le_gt_cases (List.length v') (List.length x)) as [L|L]; auto. exfalso.
    destruct (begins_past _ _ _ _ H2 L) as [y E']. destruct Hr as [Hr| ->].
    + apply Hn. eapply ends_documented; eauto.
    + destruct (dot_documented _ _ H1 _ _ E'); auto.
  - intros _. cbn [next]. apply not_id. destruct Hr as [Hr| ->]; [|reflexivity]. cbn in Hr. now destruct Hr as [<-|[<-|[<-|[]]]].
Qed.

(** a maximal run of characters that are written as they are *)
Lemma plain_run s : exists w s', s = w ++ s' /\ escapeNixString s = w ++ escapeNixString s' /\
  ~ In Q w /\ ~ In "\"%char w /\ ~ occurs (b "${") w /\
  (s' = [] \/ exists c r, s' = c :: r /\ (special c <> None \/ starts_with (b "${") s' = true)).
Proof.
  induction s as [|c s IH].
  - exists [], []. repeat split; auto. intros (x & y & E'). destruct x; discriminate.
  - assert (Hstop : (special c <> None \/ starts_with (b "${") (c :: s) = true) -> exists w s', c :: s = w ++ s' /\ escapeNixString (c :: s) = w ++ escapeNixString s' /\
      ~ In Q w /\ ~ In "\"%char w /\ ~ occurs (b "${") w /\
      (s' = [] \/ exists c r, s' = c :: r /\ (special c <> None \/ starts_with (b "${") s' = true))).
    { intros H. exists [], (c :: s). repeat split; auto. { intros (x & y & E'). destruct x; discriminate. } right. eauto. }
    destruct (special c) as [e|] eqn:Es; [apply Hstop; left; congruence|].
    destruct (starts_with (b "${") (c :: s)) eqn:Eb; [apply Hstop; auto|]. clear Hstop.
    destruct IH as (w & s' & H1 & H2 & H3 & H4 & H5 & H6). destruct (special_none c Es) as [N1 N2].
    exists (c :: w), s'. rewrite (esc_plain c s Es Eb), H2. split; [now rewrite H1|]. split; [reflexivity|].
    split; [intros [?|?]; auto|]. split; [intros [?|?]; auto|]. split; auto.
    intros (x & y & E'). destruct x as [|d x].
    + injection E' as -> E'. subst s w. discriminate Eb.
    + injection E' as <- E'. apply H5. now exists x, y.
Qed.
Section G.
Context {strict : bool}.
Notation G := (gram strict).
Lemma esc_head c s y : special c <> None \/ starts_with (b "${") (c :: s) = true -> begins (b "\") (escapeNixString (c :: s) ++ y).
Proof.
  intros [H|H].
  - destruct (special c) as [e|] eqn:Es; [|congruence]. destruct (esc_special c e s Es) as [-> _]. now eexists.
  - apply starts_with_spec in H as [r H]. injection H as -> ->. change (b "{") with ["{"%char]. cbn [app]. rewrite ReadString.esc_dollar. now eexists.
Qed.
Lemma esc_items n : forall s fs i0, List.length s <= n -> G (Parts PS_String fs) i0 ->
  exists its, G (Parts PS_String (fs ++ map inl s)) (i0 ++ its) /\ forall y, laid false its (escapeNixString s) (Q :: y).
Proof.
  induction n as [n IH] using lt_wf_ind. intros s fs i0 Ln Hg.
  destruct (plain_run s) as (w & s' & Es & Ee & N1 & N2 & N3 & H6).
  (* the part *)
  assert (Hpart : exists i1, G (Parts PS_String (fs ++ map inl w)) (i0 ++ i1) /\ forall i2 y, laid false i2 (escapeNixString s') (Q :: y) ->
    laid false (i1 ++ i2) (w ++ escapeNixString s') (Q :: y)).
  { destruct w as [|c0 w0] eqn:Ew.
    - exists []. rewrite !app_nil_r. split; auto.
    - rewrite <- Ew in *. assert (Hw : w <> []) by (subst; discriminate). clear Ew c0 w0. exists [It true PS_String tok_string_part w]. split; [now apply g_parts_text|].
      intros i2 y Hl. cbn [app]. change (w ++ escapeNixString s') with ([] ++ w ++ escapeNixString s'). apply laid_item; auto; [constructor|left; now apply sp_str_part|].
      intros _. split; [|split].
      + intros x z E'. exfalso. apply N3. now exists x, z.
      + intros [r Hb]. exfalso. pose proof (esc_brace s' y) as X. rewrite Hb in X.
        assert (Y : starts_with (b "${") (b "${" ++ r) = true) by (apply starts_with_spec; now exists r). congruence.
      + right. destruct H6 as [-> |(c & r & -> & H)]; [left; now exists y|]. right. left. now apply esc_head. }
  destruct Hpart as (i1 & Hg1 & Hl1). rewrite Ee.
  destruct H6 as [-> |(c & r & -> & H)].
  - exists i1. rewrite app_nil_r in Es. subst s. split; auto. intros y. specialize (Hl1 [] y). rewrite app_nil_r in Hl1. apply Hl1. constructor.
  - (* the escape *)
    assert (Hesc : exists e u s2, escapeNixString (c :: r) = "\"%char :: e :: escapeNixString s2 /\ escape PS_String ["\"%char; e] u /\ c :: r = u ++ s2 /\ List.length s2 < List.length (c :: r)).
    { destruct (special c) as [e|] eqn:Esp.
      - destruct (esc_special c e r Esp) as [Hx _]. exists e, [c], r. split; auto. split; [|split; [reflexivity|cbn; lia]].
        replace c with (backslash e); [constructor|]. unfold special in Esp.
        repeat match type of Esp with (if Ascii.eqb c ?d then _ else _) = _ =>
          destruct (Ascii.eqb_spec c d); [injection Esp as <-; subst; reflexivity|] end. discriminate.
      - destruct H as [H|H]; [congruence|]. apply starts_with_spec in H as [r' H]. injection H as -> ->.
        exists "$"%char, (b "$"), ("{"%char :: r'). split; [apply ReadString.esc_dollar|]. split; [apply (esc_dquoted "$")|split; [reflexivity|cbn; lia]]. }
    destruct Hesc as (e & u & s2 & E1 & E2 & E3 & L2).
    assert (Ls : List.length s = List.length w + List.length (c :: r)) by (rewrite Es, app_length; reflexivity).
    destruct (IH (List.length s2) ltac:(lia) s2 ((fs ++ map inl w) ++ map inl u) ((i0 ++ i1) ++ [It true PS_String tok_string_escape ["\"%char; e]])) as (its & Hg2 & Hl2); [lia|now apply g_parts_escape|].
    exists (i1 ++ It true PS_String tok_string_escape ["\"%char; e] :: its). split.
    + revert Hg2. rewrite Es, E3, !map_app, <- !app_assoc. auto.
    + intros y. apply Hl1. rewrite E1. change ("\"%char :: e :: escapeNixString s2) with ([] ++ ["\"%char; e] ++ escapeNixString s2).
      apply laid_item; auto; [constructor|left; constructor|discriminate].
Qed.
Lemma quoted_laid x : exists its, (forall i r i' r' i2 r2, G (Name (NAttrName i r (NString i' r' (NParts i2 r2 [inl x])))) its) /\
  forall more, laid true its (b """" ++ escapeNixString x ++ b """") more.
Proof.
  destruct (esc_items (List.length x) x [] [] (le_n _) (g_parts_nil _ _ _)) as (its & Hg & Hl). cbn [app] in Hg.
  exists ([E tok_dquote (b """")] ++ its ++ [It true PS_String tok_dquote (b """")]). split.
  - intros. apply g_name_string, g_dquoted. cbn [flatten flat_map]. now rewrite app_nil_r.
  - intros more. apply laid_app; [apply laid_quote| |left; discriminate].
    apply laid_app; [apply Hl| |now right].
    change (b """") with ([] ++ b """" ++ []). apply laid_item; auto; [constructor|left; constructor|discriminate|constructor].
Qed.
(** the name written for a key *)
Lemma key_laid x : exists n its, G (Name n) its /\ key_of n = inl x /\ name_first its /\ dot_ok its /\
  forall r, after_id r -> laid true its (quoteNixAttrKey x) r.
Proof.
  pose (r0 := mkRange cur0 cur0).
  assert (X : exists n its, G (Name n) its /\ key_of n = inl x /\ forall r, after_id r -> laid true its (quoteNixAttrKey x) r).
  { unfold quoteNixAttrKey. destruct (isValidNixIdentifier x) eqn:Ev.
    - exists (NAttrName 0 r0 (NIdent 0 r0 x)), [E tok_id x]. split; [constructor|]. split; [reflexivity|].
      intros r Hr. apply ident_laid; auto. now apply valid_spelled.
    - destruct (quoted_laid x) as (its & Hg & Hl). exists (NAttrName 0 r0 (NString 0 r0 (NParts 0 r0 [inl x]))), its.
      split; [apply Hg|]. split; [cbn; now rewrite app_nil_r|]. auto. }
  destruct X as (n & its & Hg & Hk & Hl). exists n, its. split; auto. split; auto.
  split; [eapply first_name; eauto|]. split; [eapply dot_name; eauto|auto].
Qed.
End G.
