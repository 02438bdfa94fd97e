(** The invariant of the parser and the weakest preconditions of its support functions. *)
From Verif Require Import Base Diag LexModel LexSpec LexProofs AstModel PSupModel SemaModel ParseModel ParseSpec FixSpec.

Lemma trivia_app w1 w2 a : trivia w1 (w2 ++ a) -> trivia w2 a -> trivia (w1 ++ w2) a.
Proof.
  intros H. remember (w2 ++ a) as r eqn:E. revert E.
  induction H as [after|c w after Hc H IH|body w after Hb H IH|body Hb|body w after Hb H IH|body Hb];
    intros E H2; subst.
  - exact H2.
  - cbn [app]. apply trivia_blank; auto.
  - rewrite <- !app_assoc. apply trivia_block; auto.
  - symmetry in E. apply app_eq_nil in E as [-> ->]. rewrite app_nil_r. now apply trivia_block_open.
  - rewrite <- !app_assoc. apply trivia_line; auto.
  - symmetry in E. apply app_eq_nil in E as [-> ->]. rewrite app_nil_r. now apply trivia_line_end.
Qed.

Lemma skipn_plus {A} (i j : nat) (l : list A) : skipn i (skipn j l) = skipn (i + j) l.
Proof.
  revert l. induction j as [|j IH]; intros l; [now rewrite Nat.add_0_r|].
  destruct l as [|x l]; [now rewrite !skipn_nil|]. rewrite Nat.add_succ_r. simpl. apply IH.
Qed.

Lemma slice_split (src : bytes) i j k : i <= j -> j <= k -> slice src i k = slice src i j ++ slice src j k.
Proof.
  intros H1 H2. unfold slice. replace (k - i) with ((j - i) + (k - j)) by lia.
  rewrite <- (firstn_skipn (j - i) (skipn i src)) at 1.
  rewrite firstn_app, firstn_firstn.
  replace (Nat.min (j - i + (k - j)) (j - i)) with (j - i) by lia.
  f_equal. rewrite firstn_length, skipn_length, skipn_plus.
  replace (j - i + i) with j by lia.
  destruct (Nat.le_gt_cases j (List.length src)).
  - replace (Nat.min (j - i) (List.length src - i)) with (j - i) by lia. f_equal. lia.
  - rewrite skipn_all2 by lia. now rewrite !firstn_nil.
Qed.
Lemma skipn_split (src : bytes) j k : j <= k -> skipn j src = slice src j k ++ skipn k src.
Proof.
  intros H. unfold slice. rewrite <- (firstn_skipn (k - j) (skipn j src)) at 1. f_equal.
  rewrite skipn_plus. f_equal. lia.
Qed.

Section Inv.
Variable src : bytes.

(** between [i] and [j] there is only white space and comments *)
Definition gap (i j : nat) : Prop := i <= j /\ trivia (slice src i j) (skipn j src).
Lemma gap_refl i : gap i i.
Proof. split; [lia|]. unfold slice. rewrite Nat.sub_diag. constructor. Qed.
Lemma gap_trans i j k : gap i j -> gap j k -> gap i k.
Proof.
  intros [H1 T1] [H2 T2]. split; [lia|]. rewrite (slice_split src i j k H1 H2).
  apply trivia_app; [|exact T2]. now rewrite <- (skipn_split src j k H2).
Qed.

Definition tokok (m : pmode) (t : token) : Prop :=
  token_faithful src t /\ (spelled m (tk t) (tview t) \/ (m = PS_Expr /\ odd_token (tk t) (tview t))) /\
  (m = PS_Expr -> tk t = tok_eof -> off (rcur (trange t)) = List.length src).

Lemma documented_ne k v : In (k, v) documented -> v <> [].
Proof.
  intros H E. subst v. unfold documented in H. simpl in H.
  repeat (destruct H as [H|H]; [discriminate|]). exact H.
Qed.

Lemma spelled_ne m k v : spelled m k v -> k <> tok_eof -> k <> tok_path_end -> v <> [].
Proof.
  intros H H1 H2. inversion H; subst; try discriminate; try congruence; auto.
  - eapply documented_ne; eauto.
  - intros E. destruct w; discriminate.
Qed.

Lemma token_len t : token_faithful src t ->
  List.length (tview t) = off (rcur (trange t)) - off (lcur (trange t)).
Proof.
  intros (_ & (pre & post & E & (Ho & _)) & Hle & ->). unfold slice. rewrite firstn_length, skipn_length.
  assert (off (rcur (trange t)) <= List.length src) by (rewrite E, app_length; lia). lia.
Qed.

Lemma tokok_ne m t :
  tokok m t -> tk t <> tok_eof -> tk t <> tok_path_end -> off (lcur (trange t)) < off (rcur (trange t)).
Proof.
  intros (F & H & _) H1 H2. pose proof (token_len t F) as L. destruct F as (_ & _ & Hle & _).
  assert (Hne : tview t <> []).
  { destruct H as [H|[_ [[_ ->]|[E H]]]]; [eapply spelled_ne; eauto|discriminate|].
    destruct H as (c & w & segs & _ & _ & _ & ->). discriminate. }
  destruct (tview t); [congruence|]. simpl in L. lia.
Qed.

Lemma documented_expr_path_end v : ~ In (tok_path_end, v) documented.
Proof. unfold documented. simpl. intros H. repeat (destruct H as [H|H]; [discriminate|]). exact H. Qed.

Lemma tokok_path_end m t : tokok m t -> tk t = tok_path_end -> m = PS_Path.
Proof.
  intros (_ & [H|[_ H]] & _) E; rewrite E in H.
  - inversion H; subst; auto. now apply documented_expr_path_end in H0.
  - unfold odd_token in H. destruct H as [[? _]|[? _]]; discriminate.
Qed.

Lemma tokok_range m t : tokok m t -> range_in src (trange t).
Proof. intros ((A & B & C & _) & _). now split. Qed.

(** token kinds after which the parser may look further ahead *)
Definition la (k : tkind) : Prop := k = tok_id \/ k = tok_l_curly \/ k = tok_r_curly \/ k = tok_kw_let.

Fixpoint bufok (m : pmode) (lo : nat) (l : list token) (c : cursor) : Prop :=
  match l with
  | [] => gap lo (off c)
  | t :: l' =>
      gap lo (off (lcur (trange t))) /\ tokok m t /\
      match l' with
      | [] => c = rcur (trange t)
      | _ => la (tk t) /\ bufok m (off (rcur (trange t))) l' c
      end
  end.

Definition mode (s : pst) : pmode := hd PS_Expr (pmodes s).
Definition lastc (s : pst) : cursor := match plast s with Some t => rcur (trange t) | None => cur0 end.
Definition lastpos (s : pst) : nat := off (lastc s).
Definition basec (s : pst) : cursor := match pbuf s with t :: _ => lcur (trange t) | [] => cur (plex s) end.
Definition base (s : pst) : nat := off (basec s).
Definition nd (s : pst) : nat := List.length (diags (plex s)).

Definition fixes_kept (d : diag) : Prop := Forall (fun f => keeps_promise src (d_range d) (f_msg f) (f_edits f)) (d_fixes d).
Definition dok (d : diag) : Prop := diag_clean src d /\ instantiated d /\ fixes_kept d.

Record Inv (s : pst) : Prop := {
  i_good : good src (plex s);
  i_modes : pmodes s <> [];
  i_buf : bufok (mode s) (lastpos s) (pbuf s) (cur (plex s));
  i_last : forall t, plast s = Some t -> exists m, tokok m t;
  i_diags : Forall dok (diags (plex s)) }.

(** where a construct read from state [s] starts *)
Definition starts (s : pst) (c : cursor) : Prop :=
  gap (base s) (off c) /\ (pbuf s <> [] -> c = basec s) /\ (mode s <> PS_Expr -> c = basec s).

(** nothing was read *)
Record stl (s s' : pst) : Prop := Stl {
  st_buf : pbuf s' = pbuf s; st_last : plast s' = plast s; st_modes : pmodes s' = pmodes s;
  st_sync : psync s' = psync s; st_mode : mode s' = mode s;
  st_basec : basec s' = basec s; st_base : base s' = base s;
  st_lastc : lastc s' = lastc s; st_lastpos : lastpos s' = lastpos s;
  st_nd : nd s <= nd s'; st_nid : pnid s <= pnid s' }.
(** something may have been read *)
Record mvd (s s' : pst) : Prop := Mvd {
  md_modes : pmodes s' = pmodes s; md_sync : psync s' = psync s; md_mode : mode s' = mode s;
  md_base : base s <= base s'; md_lastpos : lastpos s <= lastpos s';
  md_nd : nd s <= nd s'; md_nid : pnid s <= pnid s';
  md_has : plast s <> None -> plast s' <> None }.

Lemma stl_refl s : stl s s.
Proof. now constructor. Qed.
Lemma mvd_refl s : mvd s s.
Proof. now constructor. Qed.
Lemma mvd_trans s1 s2 s3 : mvd s1 s2 -> mvd s2 s3 -> mvd s1 s3.
Proof. intros [] []. constructor; try congruence; try lia. auto. Qed.
Lemma stl_mvd s s' : stl s s' -> mvd s s'.
Proof. intros []. constructor; try congruence; try lia. Qed.

(** * Weakest preconditions *)
(** the crashes that are allowed (see theorem C19) *)
Definition allowed (w : string) : Prop :=
  (exists p, src = p ++ b "\") \/
  (w = "should be path_end or ${"%string /\ (occurs (b "~/") src \/ occurs (b "${") src)) \/
  (w = "AttrName::id: not an identifier"%string /\ occurs (b "inherit") src).

Definition wp {A} (m : P A) (Q : A -> pst -> Prop) (s : pst) : Prop :=
  match m s with
  | Ok (a, s') => Q a s'
  | Crash w => allowed w
  | OutOfFuel => False
  end.

Lemma wp_mono {A} (m : P A) (Q Q' : A -> pst -> Prop) s :
  wp m Q s -> (forall a s', Q a s' -> Q' a s') -> wp m Q' s.
Proof. unfold wp. destruct (m s) as [[a s']|w|]; auto. Qed.
Lemma wp_bind {A B} (m : P A) (k : A -> P B) Q s :
  wp m (fun a s' => wp (k a) Q s') s -> wp (pbind m k) Q s.
Proof. unfold wp, pbind. destruct (m s) as [[a s']|w|]; auto. Qed.
Lemma wp_ret {A} (a : A) (Q : A -> pst -> Prop) s : Q a s -> wp (ret a) Q s.
Proof. auto. Qed.
Lemma wp_lift {A} (a : A) (Q : A -> pst -> Prop) s : Q a s -> wp (lift (Ok a)) Q s.
Proof. auto. Qed.
Lemma wp_passert w (Q : unit -> pst -> Prop) s : Q tt s -> wp (passert true w) Q s.
Proof. auto. Qed.

(** changing only diagnostics and the next identity *)
Lemma Inv_lite s s' :
  Inv s -> cur (plex s') = cur (plex s) -> rest (plex s') = rest (plex s) -> Forall dok (diags (plex s')) ->
  pbuf s' = pbuf s -> plast s' = plast s -> pmodes s' = pmodes s -> Inv s'.
Proof.
  intros [G M Bf L D] E1 E2 E3 E4 E5 E6. constructor.
  - unfold good in *. now rewrite E1, E2.
  - now rewrite E6.
  - unfold mode, lastpos, lastc in *. now rewrite E1, E4, E5, E6.
  - now rewrite E5.
  - exact E3.
Qed.
Lemma stl_lite s s' :
  cur (plex s') = cur (plex s) -> nd s <= nd s' -> pbuf s' = pbuf s -> plast s' = plast s ->
  pmodes s' = pmodes s -> psync s' = psync s -> pnid s <= pnid s' -> stl s s'.
Proof.
  intros E1 E2 E3 E4 E5 E6 E7. constructor; auto; unfold mode, base, basec, lastpos, lastc;
    rewrite ?E1, ?E3, ?E4, ?E5; reflexivity.
Qed.

Lemma wp_fresh (Q : nat -> pst -> Prop) s :
  Inv s -> (forall s', Inv s' -> stl s s' -> pnid s < pnid s' -> Q (pnid s) s') -> wp fresh Q s.
Proof.
  intros I H. unfold wp, fresh. apply H.
  - apply (Inv_lite s _ I); try reflexivity. apply I.
  - apply stl_lite; unfold nd; simpl; auto.
  - simpl. lia.
Qed.

Lemma wp_emit d (Q : unit -> pst -> Prop) s :
  Inv s -> dok d -> (forall s', Inv s' -> stl s s' -> 0 < nd s' -> Q tt s') -> wp (emit d) Q s.
Proof.
  intros I Hd H. unfold wp, emit. apply H.
  - apply (Inv_lite s _ I); try reflexivity. simpl. constructor; [exact Hd|apply I].
  - apply stl_lite; unfold nd; simpl; auto.
  - unfold nd. simpl. lia.
Qed.

Lemma wp_upd_last f (Q : unit -> pst -> Prop) s :
  Inv s -> 0 < nd s -> (forall d, dok d -> dok (f d)) ->
  (forall s', Inv s' -> stl s s' -> 0 < nd s' -> Q tt s') -> wp (upd_last f) Q s.
Proof.
  intros I Hn Hf H. unfold wp, upd_last. pose proof (i_diags _ I) as D. unfold nd in Hn.
  destruct (diags (plex s)) as [|d ds] eqn:Ed; [simpl in Hn; lia|]. inversion D; subst. apply H.
  - apply (Inv_lite s _ I); try reflexivity. simpl. constructor; auto.
  - apply stl_lite; unfold nd; simpl; auto. unfold nd. simpl. rewrite Ed. simpl. lia.
  - unfold nd. simpl. lia.
Qed.

Lemma wp_withSync {A} k (m : P A) (Q : A -> pst -> Prop) s :
  Inv s ->
  (forall s1, Inv s1 -> psync s1 = k :: psync s ->
     pbuf s1 = pbuf s -> plast s1 = plast s -> pmodes s1 = pmodes s -> mode s1 = mode s -> basec s1 = basec s ->
     base s1 = base s -> lastc s1 = lastc s -> lastpos s1 = lastpos s -> nd s1 = nd s -> pnid s1 = pnid s ->
     wp m (fun a s2 => Inv s2 /\ psync s2 = k :: psync s /\
        forall s3, Inv s3 -> psync s3 = psync s ->
          pbuf s3 = pbuf s2 -> plast s3 = plast s2 -> pmodes s3 = pmodes s2 -> mode s3 = mode s2 ->
          basec s3 = basec s2 -> base s3 = base s2 -> lastc s3 = lastc s2 -> lastpos s3 = lastpos s2 ->
          nd s3 = nd s2 -> pnid s3 = pnid s2 -> Q a s3) s1) ->
  wp (withSync k m) Q s.
Proof.
  intros I H. unfold wp, withSync.
  assert (I1 : Inv (set_sync (k :: psync s) s)).
  { apply (Inv_lite s _ I); try reflexivity. apply I. }
  specialize (H _ I1 eq_refl eq_refl eq_refl eq_refl eq_refl eq_refl eq_refl eq_refl eq_refl eq_refl eq_refl).
  unfold wp in H.
  destruct (m _) as [[a s2]|w|]; auto. destruct H as (I2 & E & H).
  apply H; try reflexivity.
  - apply (Inv_lite s2 _ I2); try reflexivity. apply I2.
  - simpl. rewrite E. simpl. replace (tkind_beq k k) with true; [reflexivity|]. destruct k; reflexivity.
Qed.

(** * Reading tokens *)
Lemma slice_mv w s s' : good src s -> mv w s s' -> slice src (off (cur s)) (off (cur s')) = w.
Proof.
  intros G (A1 & A2 & _). unfold slice. rewrite <- (good_rest _ _ G), A1, A2, advs_off.
  replace (off (cur s) + List.length w - off (cur s)) with (List.length w) by lia.
  rewrite firstn_app, Nat.sub_diag, firstn_all. simpl. now rewrite app_nil_r.
Qed.

Lemma lex_diag_dok s d : good src s -> Forall (reach s) (diag_cursors d) -> lex_diag d -> dok d.
Proof.
  intros G F (H1 & H2 & H3).
  assert (H4 : fixes_kept d).
  { unfold fixes_kept. eapply Forall_impl; [|exact H2]. intros f (e & -> & _ & Q & Q' & ->). now apply keeps_insert. }
  split; [|split; [exact H3|exact H4]]. clear H4.
  assert (F' : Forall (cursor_in src) (diag_cursors d)).
  { eapply Forall_impl; [|exact F]. intros c. now apply good_reach. }
  clear F. unfold diag_cursors in F'. apply Forall_app in F' as [F1 F']. apply Forall_app in F' as [F2 F3].
  unfold diag_ranges in H1. inversion H1 as [|? ? A B]; subst. apply Forall_app in B as [B C].
  split; [|split].
  - inversion F1 as [|? ? X Y]; subst. inversion Y; subst. now split.
  - clear - F2 B. induction (d_notes d) as [|n l IH]; constructor; simpl in *.
    + inversion B; subst. inversion F2 as [|? ? X Y]; subst. inversion Y as [|? ? X' Y']; subst. now split.
    + inversion B; subst. inversion F2 as [|? ? X Y]; subst. inversion Y as [|? ? X' Y']; subst. auto.
  - clear - F3 C H2. induction (d_fixes d) as [|f l IH]; constructor; simpl in *.
    + inversion H2 as [|? ? (e & E & He & _) H2']; subst. unfold fix_clean. rewrite E in *. simpl in *.
      inversion C; subst. inversion F3 as [|? ? X Y]; subst. inversion Y; subst.
      split; [|constructor; constructor]. constructor; [|constructor]. split; auto. now split.
    + inversion H2; subst. apply Forall_app in C as [_ C]. apply Forall_app in F3 as [_ F3]. auto.
Qed.

Lemma mv_dok w s s' : good src s -> mv w s s' -> Forall dok (diags s) ->
  Forall dok (diags s') /\ List.length (diags s) <= List.length (diags s').
Proof.
  intros G (_ & _ & n & -> & F) D. split; [|rewrite app_length; lia].
  apply Forall_app. split; [|exact D]. eapply Forall_impl; [|exact F].
  intros d [H1 H2]. eapply lex_diag_dok; eauto.
Qed.

(** one token from the lexer *)
Lemma lex_step m l (Q : token -> lst -> Prop) :
  good src l -> Forall dok (diags l) ->
  (forall t l', good src l' -> Forall dok (diags l') -> List.length (diags l) <= List.length (diags l') ->
     tokok m t -> gap (off (cur l)) (off (lcur (trange t))) -> cur l' = rcur (trange t) ->
     (m <> PS_Expr -> lcur (trange t) = cur l) ->
     (m = PS_Expr -> tk t = tok_eof -> rest l' = []) -> Q t l') ->
  match lex_mode m l with
  | Ok (t, l') => Q t l'
  | Crash w => allowed w
  | OutOfFuel => False
  end.
Proof.
  intros G D H.
  destruct (lex_mode_spec m l) as [[Hc [why ->]]|[_ (w & k & v & l1 & l' & -> & M1 & M2 & He & Hn & _ & Hsp)]].
  - left. destruct G as (pre & -> & _). destruct Hc as [[_ ->]|[_ ->]].
    + now exists pre.
    + exists (pre ++ b "''"). rewrite <- app_assoc. reflexivity.
  - pose proof (good_mv _ _ _ _ G M1) as G1. pose proof (good_mv _ _ _ _ G1 M2) as G2.
    destruct (mv_dok _ _ _ G M1 D) as [D1 L1]. destruct (mv_dok _ _ _ G1 M2 D1) as [D2 L2].
    assert (Hend : m = PS_Expr -> k = tok_eof -> rest l' = []).
    { intros -> ->. destruct (He eq_refl) as (_ & E1 & E2). destruct (rest l1) as [|x r] eqn:Er.
      - destruct M2 as (E & _). rewrite Er in E. symmetry in E. now apply app_eq_nil in E.
      - now destruct (E2 ltac:(discriminate)). }
    apply H; auto.
    + lia.
    + split; [now apply token_faithful_mv|]. split; [exact Hsp|]. cbn [tk trange rcur]. intros Em Ee.
      destruct G2 as (p2 & E2 & (Ho & _)). rewrite (Hend Em Ee), app_nil_r in E2. now rewrite E2.
    + simpl. split.
      * destruct M1 as (_ & -> & _). rewrite advs_off. lia.
      * rewrite (slice_mv _ _ _ G M1), <- (good_rest _ _ G1).
        destruct m; try (destruct Hn as [-> ->]; [discriminate|]; constructor).
        now destruct (He eq_refl).
    + intros Hm. destruct (Hn Hm) as [-> _]. reflexivity.
Qed.

Lemma bufok_snoc m lo l c t c' :
  bufok m lo l c -> Forall (fun x => la (tk x)) l -> tokok m t -> gap (off c) (off (lcur (trange t))) ->
  c' = rcur (trange t) -> bufok m lo (l ++ [t]) c'.
Proof.
  revert lo. induction l as [|x l IH]; intros lo Hb Hl Ht Hg ->; cbn [app bufok].
  - split; [now apply (gap_trans _ _ _ Hb)|]. now split.
  - inversion Hl as [|? ? Hx Hl']; subst. cbn [bufok] in Hb. destruct Hb as (G & T & Hb).
    split; [exact G|]. split; [exact T|].
    assert (E : exists y l2, l ++ [t] = y :: l2) by (destruct l; simpl; eauto).
    destruct E as (y & l2 & E). destruct l as [|x' l].
    + cbn [app]. subst c. split; [exact Hx|]. split; [exact Hg|]. now split.
    + cbn [app]. split; [exact Hx|]. apply (IH _ (proj2 Hb) Hl' Ht Hg eq_refl).
Qed.

Definition peeked (s : pst) (t : token) (s' : pst) : Prop :=
  pmodes s' = pmodes s /\ psync s' = psync s /\ mode s' = mode s /\ plast s' = plast s /\
  lastc s' = lastc s /\ lastpos s' = lastpos s /\ nd s <= nd s' /\ pnid s' = pnid s /\
  base s <= base s' /\ tokok (mode s) t.

Lemma wp_peek n pre (Q : token -> pst -> Prop) s :
  Inv s -> (exists bf, pbuf s = pre ++ bf) -> List.length pre = n -> Forall (fun x => la (tk x)) pre ->
  (forall t bf s', Inv s' -> pbuf s' = pre ++ t :: bf -> peeked s t s' ->
     (n = 0 -> starts s (lcur (trange t)) /\ basec s' = lcur (trange t) /\ base s' = off (lcur (trange t))) ->
     (pbuf s = pre -> tk t = tok_eof -> mode s = PS_Expr -> rest (plex s') = []) ->
     Q t s') ->
  wp (peek n) Q s.
Proof.
  intros I [bf E] Hlen Hla H. unfold wp, peek.
  destruct bf as [|t bf].
  - (* one token must be lexed *)
    rewrite app_nil_r in E. rewrite E. replace (S n - List.length pre) with 1 by lia.
    cbn [fill]. destruct (pmodes s) as [|m ms] eqn:Em; [now destruct (i_modes _ I)|].
    pose proof (i_buf _ I) as Hb. assert (Hmode : mode s = m) by (unfold mode; now rewrite Em).
    rewrite Hmode in Hb.
    pose (X := lex_step m (plex s) (fun t l => forall r, r = set_buf (pbuf s ++ [t]) (set_lex l s) -> Q t r)).
    enough (Y : forall t l', good src l' -> Forall dok (diags l') ->
         List.length (diags (plex s)) <= List.length (diags l') ->
         tokok m t -> gap (off (cur (plex s))) (off (lcur (trange t))) -> cur l' = rcur (trange t) ->
         (m <> PS_Expr -> lcur (trange t) = cur (plex s)) ->
         (m = PS_Expr -> tk t = tok_eof -> rest l' = []) ->
         forall r, r = set_buf (pbuf s ++ [t]) (set_lex l' s) -> Q t r).
    { specialize (X (i_good _ I) (i_diags _ I) Y). destruct (lex_mode m (plex s)) as [[t l]|w|]; auto.
      unfold ret. simpl. rewrite E, nth_error_app2 by lia. rewrite Hlen, Nat.sub_diag. simpl.
      apply X. now rewrite E. }
    intros t l' G D L T Gp Ec Hne He r ->.
    assert (Hb' : bufok m (lastpos s) (pre ++ [t]) (cur l')).
    { rewrite E in Hb. eapply bufok_snoc; eauto. }
    assert (I' : Inv (set_buf (pbuf s ++ [t]) (set_lex l' s))).
    { constructor; simpl; auto.
      - apply (i_modes _ I).
      - rewrite E. unfold mode, lastpos, lastc in *. simpl. now rewrite Hmode.
      - apply (i_last _ I). }
    apply (H t [] _ I').
    + simpl. now rewrite E.
    + assert (Hmode' : mode (set_buf (pbuf s ++ [t]) (set_lex l' s)) = m) by exact Hmode.
      unfold peeked. rewrite Hmode', Hmode.
      split; [reflexivity|]. split; [reflexivity|]. split; [reflexivity|]. split; [reflexivity|].
      split; [reflexivity|]. split; [reflexivity|]. split; [exact L|]. split; [reflexivity|].
      split; [|exact T].
      unfold base, basec. simpl. destruct pre as [|x pre]; rewrite E; simpl; [apply Gp|lia].
    + intros ->. destruct pre; [|discriminate]. unfold base, basec. simpl. rewrite E. simpl.
      split; [|split; reflexivity]. split; [|split].
      * unfold base, basec. rewrite E. exact Gp.
      * congruence.
      * rewrite Hmode. unfold basec. rewrite E. exact Hne.
    + intros _ Et Hm. simpl. apply He; congruence.
  - (* the token is in the buffer *)
    replace (S n - List.length (pbuf s)) with 0 by (rewrite E, app_length; cbn [List.length]; lia).
    cbn [fill]. unfold ret. rewrite E, nth_error_app2 by lia. rewrite Hlen, Nat.sub_diag. simpl.
    assert (T : tokok (mode s) t).
    { pose proof (i_buf _ I) as Hb. rewrite E in Hb. clear - Hb. revert Hb. generalize (lastpos s).
      induction pre as [|x pre IH]; intros lo Hb; cbn [app bufok] in Hb; [apply Hb|].
      destruct Hb as (_ & _ & Hb). destruct (pre ++ t :: bf) eqn:Ep; [destruct pre; discriminate|].
      apply (IH _ (proj2 Hb)). }
    apply (H t bf s I E).
    + unfold peeked. repeat (split; [reflexivity|]). exact T.
    + intros ->. destruct pre; [|discriminate]. simpl in E.
      assert (Eb : basec s = lcur (trange t)) by (unfold basec; now rewrite E).
      unfold base. rewrite Eb. split; [|split; reflexivity]. split; [|split]; rewrite ?Eb; auto.
      unfold base. rewrite Eb. apply gap_refl.
    + intros Ebuf. rewrite E in Ebuf. apply (f_equal (@List.length _)) in Ebuf.
      rewrite app_length in Ebuf. simpl in Ebuf. lia.
Qed.

Lemma wp_peek0 (Q : token -> pst -> Prop) s :
  Inv s ->
  (forall t bf s', Inv s' -> pbuf s' = t :: bf -> peeked s t s' ->
     starts s (lcur (trange t)) -> basec s' = lcur (trange t) -> base s' = off (lcur (trange t)) -> Q t s') ->
  wp (peek 0) Q s.
Proof.
  intros I H. apply (wp_peek 0 []); auto; [now exists (pbuf s)|].
  intros t bf s' I' E Hp H0 _. destruct (H0 eq_refl) as (A & B & C). apply (H t bf); auto.
Qed.

Lemma gap_le i j : gap i j -> i <= j.
Proof. now intros []. Qed.

Lemma wp_consume t bf (Q : unit -> pst -> Prop) s :
  Inv s -> pbuf s = t :: bf ->
  (forall s', Inv s' -> pbuf s' = bf -> plast s' = Some t -> lastc s' = rcur (trange t) ->
     lastpos s' = off (rcur (trange t)) -> pmodes s' = pmodes s -> psync s' = psync s -> mode s' = mode s ->
     nd s' = nd s -> pnid s' = pnid s -> off (rcur (trange t)) <= base s' ->
     (~ la (tk t) -> bf = [] /\ basec s' = rcur (trange t)) ->
     lastpos s <= off (lcur (trange t)) -> base s = off (lcur (trange t)) -> Q tt s') ->
  wp consume Q s.
Proof.
  intros I E H. unfold wp, consume. rewrite E. unfold pbind, popBuf. rewrite E. simpl.
  pose proof (i_buf _ I) as Hb. rewrite E in Hb. cbn [bufok] in Hb. destruct Hb as (Gp & T & Hb).
  assert (Gr : gap (off (rcur (trange t))) (off (basec (PS (plex s) bf (Some t) (pmodes s) (psync s) (pnid s))))).
  { unfold basec. simpl. destruct bf as [|x bf].
    - rewrite Hb. apply gap_refl.
    - destruct Hb as (_ & Hb). cbn [bufok] in Hb. apply Hb. }
  apply H; auto.
  - constructor; simpl; try apply I.
    + unfold mode, lastpos, lastc in *. simpl. destruct bf; [|apply Hb].
      simpl. rewrite Hb. apply gap_refl.
    + intros t' [= <-]. eexists. exact T.
  - apply (gap_le _ _ Gr).
  - intros Hn. destruct bf as [|x bf]; [|now destruct Hb]. split; [reflexivity|]. unfold basec. simpl. exact Hb.
  - apply (gap_le _ _ Gp).
  - unfold base, basec. now rewrite E.
Qed.

Lemma base_le s : Inv s -> base s <= List.length src.
Proof.
  intros I. unfold base, basec. destruct (pbuf s) as [|t bf] eqn:E.
  - destruct (good_cur _ _ (i_good _ I)) as (pre & post & -> & (Ho & _)). rewrite Ho, app_length. lia.
  - pose proof (i_buf _ I) as Hb. rewrite E in Hb. cbn [bufok] in Hb. destruct Hb as (_ & ((Hc & _) & _) & _).
    destruct Hc as (pre & post & -> & (Ho & _)). rewrite Ho, app_length. lia.
Qed.
Lemma lastpos_base s : Inv s -> lastpos s <= base s.
Proof.
  intros I. unfold base, basec. pose proof (i_buf _ I) as Hb. destruct (pbuf s) as [|t bf] eqn:E; cbn [bufok] in Hb.
  - apply (gap_le _ _ Hb).
  - apply (gap_le _ _ (proj1 Hb)).
Qed.
Lemma basec_in s : Inv s -> cursor_in src (basec s).
Proof.
  intros I. unfold basec. destruct (pbuf s) as [|t bf] eqn:E.
  - apply good_cur, I.
  - pose proof (i_buf _ I) as Hb. rewrite E in Hb. cbn [bufok] in Hb. apply Hb.
Qed.
Lemma lastc_in s : Inv s -> plast s <> None -> cursor_in src (lastc s).
Proof.
  intros I H. unfold lastc. destruct (plast s) as [t|] eqn:E; [|congruence].
  destruct (i_last _ I t E) as (m & (F & _)). apply F.
Qed.

Lemma wp_lastR (Q : cursor -> pst -> Prop) s : plast s <> None -> Q (lastc s) s -> wp lastR Q s.
Proof. intros H HQ. unfold wp, lastR, lastc in *. destruct (plast s); [exact HQ|congruence]. Qed.
Lemma wp_assertLast (Q : unit -> pst -> Prop) s : plast s <> None -> Q tt s -> wp assertLast Q s.
Proof. intros H HQ. apply wp_bind. apply wp_lastR; auto. Qed.
Lemma wp_toLast c (Q : range -> pst -> Prop) s :
  plast s <> None -> Q (mkRange c (lastc s)) s -> wp (toLast c) Q s.
Proof. intros H HQ. apply wp_bind. apply wp_lastR; auto. Qed.
Lemma wp_mkMisc r (Q : node -> pst -> Prop) s :
  Inv s -> (forall s', Inv s' -> stl s s' -> pnid s < pnid s' -> Q (NMisc (pnid s) r) s') -> wp (mkMisc r) Q s.
Proof. intros I H. apply wp_bind. apply wp_fresh; auto. Qed.

Lemma wp_resetLookAhead (Q : unit -> pst -> Prop) s :
  Inv s ->
  (forall s', Inv s' -> pbuf s' = [] -> basec s' = basec s -> base s' = base s -> plast s' = plast s ->
     lastc s' = lastc s -> lastpos s' = lastpos s -> pmodes s' = pmodes s -> psync s' = psync s ->
     nd s' = nd s -> pnid s' = pnid s -> Q tt s') ->
  wp (resetLookAheadBuf src) Q s.
Proof.
  intros I H. unfold wp, resetLookAheadBuf. destruct (pbuf s) as [|t bf] eqn:E; [apply H; auto|].
  pose proof (i_buf _ I) as Hb. rewrite E in Hb. cbn [bufok] in Hb. destruct Hb as (Gp & T & _).
  pose proof (proj1 (proj1 T)) as Hin. unfold setCur. pose proof (base_le s I) as Hl.
  unfold base, basec in Hl. rewrite E in Hl. rewrite (proj2 (Nat.leb_le _ _) Hl).
  apply H; unfold base, basec; simpl; rewrite ?E; auto.
  constructor; simpl; try apply I; [|exact Gp]. apply (good_setCur src (lcur (trange t)) (plex s) Hin).
Qed.

Lemma bufok_nil m m' lo c : bufok m lo [] c -> bufok m' lo [] c.
Proof. auto. Qed.

Lemma wp_withState {A} m (body : P A) (Q : A -> pst -> Prop) s :
  Inv s ->
  (forall s1, Inv s1 -> pbuf s1 = [] -> pmodes s1 = m :: pmodes s -> mode s1 = m -> psync s1 = psync s ->
     basec s1 = basec s -> base s1 = base s -> plast s1 = plast s -> lastc s1 = lastc s ->
     lastpos s1 = lastpos s -> nd s1 = nd s -> pnid s1 = pnid s ->
     wp body (fun a s2 => Inv s2 /\ pmodes s2 = m :: pmodes s /\
        forall s3, Inv s3 -> pbuf s3 = [] -> pmodes s3 = pmodes s -> mode s3 = mode s -> psync s3 = psync s2 ->
          basec s3 = basec s2 -> base s3 = base s2 -> plast s3 = plast s2 -> lastc s3 = lastc s2 ->
          lastpos s3 = lastpos s2 -> nd s3 = nd s2 -> pnid s3 = pnid s2 -> Q a s3) s1) ->
  wp (withState src m body) Q s.
Proof.
  intros I H. unfold withState. apply wp_bind. unfold pushState. apply wp_bind.
  apply wp_resetLookAhead; auto. intros s' I' B1 B2 B3 B4 B5 B6 B7 B8 B9 B10.
  unfold wp at 1. apply wp_bind. eapply wp_mono; [apply H|].
  - constructor; simpl; try apply I'; try discriminate.
    rewrite B1. pose proof (i_buf _ I') as Hb. rewrite B1 in Hb. exact Hb.
  - exact B1.
  - simpl. now rewrite B7.
  - reflexivity.
  - exact B8.
  - rewrite <- B2. unfold basec. simpl. rewrite B1. reflexivity.
  - rewrite <- B3. unfold base, basec. simpl. rewrite B1. reflexivity.
  - exact B4.
  - exact B5.
  - exact B6.
  - exact B9.
  - exact B10.
  - cbv beta. intros a s2 (I2 & E2 & HQ). apply wp_bind. unfold popState. apply wp_bind.
    apply wp_resetLookAhead; auto. intros s4 I4 C1 C2 C3 C4 C5 C6 C7 C8 C9 C10.
    unfold wp at 1. rewrite C7, E2. apply wp_ret.
    apply HQ; auto.
    + constructor; simpl; try apply I4; [apply I|].
      rewrite C1. pose proof (i_buf _ I4) as Hb. rewrite C1 in Hb. exact Hb.
Qed.

(** * Diagnostics *)
Lemma range_point c : cursor_in src c -> range_in src (point c).
Proof. intros H. split; [exact H|]. split; [exact H|]. simpl. lia. Qed.

Lemma cursor_in_len c : cursor_in src c -> off c <= List.length src.
Proof. intros (p & q & -> & (-> & _)). rewrite app_length. lia. Qed.

Lemma mkRemoval_ok r : off (lcur r) < off (rcur r) -> mkRemoval r = Ok (TEdit r []).
Proof.
  intros H. unfold mkRemoval, mkEdit, edit_ok, cur_eqb.
  rewrite (proj2 (Nat.eqb_neq (off (lcur r)) (off (rcur r)))) by lia.
  now rewrite andb_false_r.
Qed.
Lemma mkEdit_ok r t : t <> [] -> mkEdit r t = Ok (TEdit r t).
Proof. intros H. unfold mkEdit, edit_ok. destruct t; [congruence|]. simpl. now rewrite orb_true_r. Qed.

Lemma fix_one msg e : edit_clean src e -> fix_clean src (Fix_ msg [e]).
Proof.
  intros H. split; cbn [f_edits].
  - constructor; [exact H|constructor].
  - constructor; constructor.
Qed.
Lemma fix_two msg e1 e2 : edit_clean src e1 -> edit_clean src e2 -> apart (e_range e1) (e_range e2) ->
  fix_clean src (Fix_ msg [e1; e2]).
Proof.
  intros H1 H2 H3. split; simpl.
  - constructor; [exact H1|]. constructor; [exact H2|constructor].
  - constructor; [constructor; [exact H3|constructor]|]. constructor; constructor.
Qed.
Lemma edit_ins c t : cursor_in src c -> t <> [] -> edit_clean src (TEdit (point c) t).
Proof. intros H1 H2. split; [now apply range_point|now left]. Qed.
Lemma edit_rem r : range_in src r -> off (lcur r) < off (rcur r) -> edit_clean src (TEdit r []).
Proof. intros H1 H2. split; [exact H1|now right]. Qed.

Lemma dok_fix f d : fix_clean src f -> keeps_promise src (d_range d) (f_msg f) (f_edits f) -> dok d -> dok (d_fix f d).
Proof.
  intros Hf Hk ((A & B & C) & D & E). split; [|split; [exact D|]].
  - split; [exact A|]. split; [exact B|]. simpl. apply Forall_app. split; auto.
  - unfold fixes_kept. simpl. apply Forall_app. split; auto.
Qed.
Lemma dok_tag t d : dok d -> dok (d_tag t d).
Proof. auto. Qed.
Lemma dok_note n d :
  range_in src (n_range n) -> holes (nmessage (n_kind n)) = List.length (n_args n) -> dok d -> dok (d_note n d).
Proof.
  intros H1 H2 ((A & B & C) & (D & E) & K). split; [split; [exact A|split; [|exact C]]|split; [split; [exact D|]|exact K]];
    simpl; apply Forall_app; auto.
Qed.
Lemma dok_0 k r : range_in src r -> holes (dmessage k) = 0 -> dok (diag0 k r).
Proof. intros H1 H2. split; [split; [exact H1|]; split; constructor|split; [split; [exact H2|constructor]|constructor]]. Qed.
Lemma dok_1 k r a : range_in src r -> holes (dmessage k) = 1 -> dok (d_arg a (diag0 k r)).
Proof. intros H1 H2. split; [split; [exact H1|]; split; constructor|split; [split; [exact H2|constructor]|constructor]]. Qed.

(** what the edits made from tokens do *)
Definition plain_spelling (k : tkind) : option bytes :=
  match k with
  | tok_l_paren => Some (b "(") | tok_r_paren => Some (b ")") | tok_dot => Some (b ".") | tok_kw_or => Some (b "or")
  | tok_kw_if => Some (b "if") | tok_kw_assert => Some (b "assert") | tok_kw_inherit => Some (b "inherit")
  | tok_semi_colon => Some (b ";") | tok_l_curly => Some (b "{") | tok_r_curly => Some (b "}") | _ => None
  end.
Lemma tok_view m t : tokok m t -> text_of src (trange t) = tview t.
Proof. intros ((_ & _ & _ & E) & _). now symmetry. Qed.
Lemma tok_text m t w : tokok m t -> plain_spelling (tk t) = Some w -> text_of src (trange t) = w.
Proof.
  intros K E. rewrite (tok_view m t K). destruct K as (_ & [S|[_ O]] & _).
  - remember (tk t) as k eqn:Ek. remember (tview t) as v eqn:Ev. clear Ek Ev. destruct S; try discriminate E.
    match goal with Q : In _ documented |- _ => unfold documented in Q; cbn [In] in Q;
      repeat (destruct Q as [Q|Q]; [apply pair_equal_spec in Q as [<- <-]; first [discriminate E|now injection E]|]); destruct Q end.
  - unfold odd_token in O. destruct O as [[O _]|[O _]]; rewrite O in E; discriminate E.
Qed.
Lemma tok_removes m t w : tokok m t -> plain_spelling (tk t) = Some w -> removes src w (TEdit (trange t) []).
Proof. intros K E. split; [exact (tok_text m t w K E)|reflexivity]. Qed.
Lemma tok_address m t : tokok m t -> tk t = tok_uri -> address_text (text_of src (trange t)).
Proof.
  intros K E. rewrite (tok_view m t K). destruct K as (_ & [S|[_ O]] & _).
  - remember (tk t) as k eqn:Ek. remember (tview t) as v eqn:Ev. clear Ek Ev. destruct S; try discriminate E.
    + subst. match goal with Q : In _ documented |- _ => unfold documented in Q; cbn [In] in Q;
        repeat (destruct Q as [Q|Q]; [discriminate Q|]); destruct Q end.
    + now exists c, w, d, u.
  - unfold odd_token in O. destruct O as [[O _]|[O _]]; rewrite O in E; discriminate E.
Qed.
Lemma ins_inserts c t : inserts t (TEdit (point c) t).
Proof. now split. Qed.
Lemma keeps_insert_ r c t : c = lcur r -> keeps_promise src r (f_msg (Fix_ (b "insert " ++ t) [TEdit (point c) t])) [TEdit (point c) t].
Proof. intros E. apply keeps_insert; [apply ins_inserts|exact E]. Qed.

Lemma wp_fix1_ins msg c t (Q : fix_ -> pst -> Prop) s :
  t <> [] -> Q (Fix_ msg [TEdit (point c) t]) s -> wp (fix1 msg (mkInsertion c t)) Q s.
Proof. intros H HQ. apply wp_bind. rewrite (mkInsertion_ok _ _ H). apply wp_lift, wp_ret, HQ. Qed.
Lemma wp_fix1_rem msg r (Q : fix_ -> pst -> Prop) s :
  off (lcur r) < off (rcur r) -> Q (Fix_ msg [TEdit r []]) s -> wp (fix1 msg (mkRemoval r)) Q s.
Proof. intros H HQ. apply wp_bind. rewrite (mkRemoval_ok _ H). apply wp_lift, wp_ret, HQ. Qed.
Lemma wp_fix1_edit msg r t (Q : fix_ -> pst -> Prop) s :
  t <> [] -> Q (Fix_ msg [TEdit r t]) s -> wp (fix1 msg (mkEdit r t)) Q s.
Proof. intros H HQ. apply wp_bind. rewrite (mkEdit_ok _ _ H). apply wp_lift, wp_ret, HQ. Qed.

Lemma wp_noteMatch r k (Q : unit -> pst -> Prop) s :
  Inv s -> 0 < nd s -> range_in src r ->
  (forall s', Inv s' -> stl s s' -> 0 < nd s' -> Q tt s') -> wp (noteMatch r k) Q s.
Proof.
  intros I Hn Hr H. apply wp_upd_last; auto. intros d Hd. apply dok_note; auto.
Qed.
Lemma wp_addFix_rem msg r (Q : unit -> pst -> Prop) s :
  Inv s -> 0 < nd s -> range_in src r -> off (lcur r) < off (rcur r) -> (forall m, keeps_promise src m msg [TEdit r []]) ->
  (forall s', Inv s' -> stl s s' -> 0 < nd s' -> Q tt s') -> wp (addFix msg (mkRemoval r)) Q s.
Proof.
  intros I Hn Hr Hl Hk H. apply wp_bind. apply wp_fix1_rem; auto. apply wp_upd_last; auto.
  intros d Hd. apply dok_fix; auto. apply fix_one. now apply edit_rem.
Qed.
Lemma wp_addFix_ins msg c t (Q : unit -> pst -> Prop) s :
  Inv s -> 0 < nd s -> cursor_in src c -> t <> [] -> (forall m, keeps_promise src m msg [TEdit (point c) t]) ->
  (forall s', Inv s' -> stl s s' -> 0 < nd s' -> Q tt s') -> wp (addFix msg (mkInsertion c t)) Q s.
Proof.
  intros I Hn Hr Hl Hk H. apply wp_bind. apply wp_fix1_ins; auto. apply wp_upd_last; auto.
  intros d Hd. apply dok_fix; auto. apply fix_one. now apply edit_ins.
Qed.
Lemma wp_diagNullExpr what (Q : unit -> pst -> Prop) s :
  Inv s -> plast s <> None ->
  (forall s', Inv s' -> stl s s' -> 0 < nd s' -> Q tt s') -> wp (diagNullExpr what) Q s.
Proof.
  intros I Hl H. apply wp_bind. apply wp_lastR; auto. apply wp_bind. apply wp_fix1_ins; [discriminate|].
  pose proof (lastc_in s I Hl) as Hc. apply wp_emit; auto.
  apply dok_fix; [| |apply dok_1; [now apply range_point|reflexivity]].
  - apply fix_one. apply edit_ins; [exact Hc|discriminate].
  - eapply keeps_dummy; [now left|apply ins_inserts|reflexivity].
Qed.
Lemma wp_orNull e what (Q : unit -> pst -> Prop) s :
  Inv s -> plast s <> None ->
  (forall s', Inv s' -> stl s s' -> (e = None -> 0 < nd s') -> Q tt s') -> wp (orNull e what) Q s.
Proof.
  intros I Hl H. destruct e; simpl.
  - apply wp_ret. apply H; auto using stl_refl. discriminate.
  - apply wp_diagNullExpr; auto.
Qed.

(** * Error recovery *)
Lemma wp_unknown fuel c (Q : bool -> pst -> Prop) s :
  Inv s -> mode s <> PS_Path -> List.length src - base s < fuel ->
  (forall c' s' t bf, Inv s' -> mvd s s' -> pbuf s' = t :: bf ->
      (c' = false -> c = false /\ lastc s' = lastc s) ->
      (c' = true -> c = true \/ (plast s' <> None /\ base s < lastpos s' /\
                                 forall x xs, pbuf s = x :: xs -> off (lcur (trange x)) < lastpos s')) ->
      Q c' s') ->
  wp (unknown_loop fuel c) Q s.
Proof.
  revert c s Q. induction fuel as [|fuel IH]; intros c s Q I Hm Hf H; [lia|].
  cbn [unknown_loop]. apply wp_bind. apply wp_peek0; auto.
  intros t bf s1 I1 E1 (P1 & P2 & P3 & P4 & P5 & P6 & P7 & P8 & P9 & P10) St Eb1 Eb2.
  unfold wp. destruct (tkind_beq (tk t) tok_eof || kmem (tk t) (psync s1)) eqn:Et.
  - apply (H c s1 t bf); auto.
    + constructor; auto; try lia. congruence.
  - change (wp (do! consume in unknown_loop fuel true) Q s1).
    apply wp_bind. apply (wp_consume t bf); auto.
    intros s2 I2 C1 C2 C3 C4 C5 C6 C7 C8 C9 C10 C11 C12 C13.
    assert (Hk : tk t <> tok_eof).
    { intros Hk. rewrite Hk in Et. discriminate. }
    assert (Hk2 : tk t <> tok_path_end).
    { intros Hk2. apply (tokok_path_end _ _ P10) in Hk2. congruence. }
    pose proof (tokok_ne _ _ P10 Hk Hk2) as Hlt.
    pose proof (base_le s2 I2) as Hle. pose proof (base_le s1 I1) as Hle1.
    apply IH; auto; [congruence|lia|].
    intros c' s3 t3 bf3 I3 M E3 Hc1 Hc2. apply (H c' s3 t3 bf3); auto.
    + destruct M. constructor; try congruence; try lia.
      intros _. apply md_has0. congruence.
    + intros ->. destruct (Hc1 eq_refl) as [? _]. discriminate.
    + intros _. right. destruct M. split; [apply md_has0; congruence|]. split; [lia|].
      intros x xs Ex. destruct St as (_ & St & _). 
      assert (lcur (trange t) = lcur (trange x)).
      { rewrite St by congruence. unfold basec. now rewrite Ex. }
      rewrite <- H0. lia.
Qed.

Lemma wp_removeUnexpected (Q : bool -> pst -> Prop) s :
  Inv s -> mode s <> PS_Path ->
  (forall s' t bf, Inv s' -> mvd s s' -> pbuf s' = t :: bf -> plast s' <> None -> base s < lastpos s' ->
     0 < nd s' -> Q true s') ->
  (forall s' t bf, Inv s' -> mvd s s' -> pbuf s' = t :: bf -> lastc s' = lastc s -> Q false s') ->
  wp (removeUnexpected src) Q s.
Proof.
  intros I Hm Ht Hf. apply wp_bind. apply wp_bind. apply wp_peek0; auto.
  intros t bf s1 I1 E1 (P1 & P2 & P3 & P4 & P5 & P6 & P7 & P8 & P9 & P10) St Eb1 Eb2.
  apply wp_bind. apply wp_unknown; auto.
  - congruence.
  - lia.
  - intros c s2 t2 bf2 I2 M E2 Hc1 Hc2. destruct c.
    + destruct Hc2 as [?|(H1 & H2 & H3)]; [auto|discriminate|].
      specialize (H3 _ _ E1). apply wp_bind. apply wp_lastR; auto. apply wp_ret. apply wp_bind.
      pose proof (lastc_in s2 I2 H1) as Hl.
      assert (Hr : range_in src (mkRange (lcur (trange t)) (lastc s2))).
      { split; [apply P10|]. split; [exact Hl|]. simpl. unfold lastpos in H3. lia. }
      apply wp_fix1_rem; [exact H3|]. apply wp_bind.
      apply wp_emit; auto.
      { apply dok_tag, dok_fix; [| |now apply dok_0]; [apply fix_one; now apply edit_rem|].
        apply keeps_removal; [now left|repeat constructor|reflexivity]. }
      intros s3 I3 S3 N3. apply wp_ret. destruct M, S3. apply (Ht s3 t2 bf2); auto; try congruence; try lia.
      constructor; try congruence; try lia.
    + destruct (Hc1 eq_refl) as [_ Hl]. apply wp_ret. destruct M.
      apply (Hf s2 t2 bf2); auto; try congruence.
      constructor; try congruence; try lia. intros H. apply md_has0. congruence.
Qed.

Lemma peek_front t bf s : pbuf s = t :: bf -> peek 0 s = Ok (t, s).
Proof. intros E. unfold peek. rewrite E. cbn [List.length Nat.sub fill]. unfold ret. now rewrite E. Qed.
Lemma wp_peek_front t bf (Q : token -> pst -> Prop) s : pbuf s = t :: bf -> Q t s -> wp (peek 0) Q s.
Proof. intros E H. unfold wp. now rewrite (peek_front _ _ _ E). Qed.

Lemma front_ok t bf s : Inv s -> pbuf s = t :: bf ->
  tokok (mode s) t /\ lastpos s <= off (lcur (trange t)) /\ basec s = lcur (trange t) /\ base s = off (lcur (trange t)).
Proof.
  intros I E. pose proof (i_buf _ I) as Hb. rewrite E in Hb. cbn [bufok] in Hb.
  split; [apply Hb|]. split; [apply (gap_le _ _ (proj1 Hb))|]. unfold base, basec. now rewrite E.
Qed.

Lemma wp_expect_front t bf k (Q : option token -> pst -> Prop) s :
  Inv s -> pbuf s = t :: bf -> tk t = k -> (forall s', Inv s' -> stl s s' -> Q (Some t) s') ->
  wp (expect src k) Q s.
Proof.
  intros I E Ek H. apply wp_withSync; auto. intros s1 I1 A1 A2 A3 A4 A5 A6 A7 A8 A9 A10 A11.
  apply wp_bind. apply (wp_peek_front t bf); [congruence|].
  rewrite Ek. replace (tkind_beq k k) with true by (destruct k; reflexivity).
  apply wp_ret. split; [exact I1|]. split; [exact A1|]. intros s3 I3 B1 B2 B3 B4 B5 B6 B7 B8 B9 B10 B11.
  apply H; auto. constructor; try congruence; lia.
Qed.

Lemma tkind_beq_eq k k' : tkind_beq k k' = true -> k = k'.
Proof. apply internal_tkind_dec_bl. Qed.
Lemma tkind_beq_refl k : tkind_beq k k = true.
Proof. destruct k; reflexivity. Qed.
Lemma tkind_beq_neq k k' : tkind_beq k k' = false -> k <> k'.
Proof. intros H ->. now rewrite tkind_beq_refl in H. Qed.

Lemma wp_expect k (Q : option token -> pst -> Prop) s :
  Inv s -> mode s <> PS_Path -> spelling k <> [] ->
  (forall s' t bf, Inv s' -> mvd s s' -> pbuf s' = t :: bf -> tk t = k -> tokok (mode s) t ->
     base s' = off (lcur (trange t)) -> basec s' = lcur (trange t) ->
     (nd s' = 0 -> lastc s' = lastc s /\ starts s (lcur (trange t))) ->
     Q (Some t) s') ->
  (forall s', Inv s' -> mvd s s' -> 0 < nd s' -> Q None s') ->
  wp (expect src k) Q s.
Proof.
  intros I Hm Hk HS HN. apply wp_withSync; auto. intros s1 I1 A1 A2 A3 A4 A5 A6 A7 A8 A9 A10 A11.
  assert (Hno : forall s2, Inv s2 -> mode s2 = mode s -> psync s2 = k :: psync s -> pmodes s2 = pmodes s ->
            base s <= base s2 -> lastpos s <= lastpos s2 -> nd s <= nd s2 -> pnid s <= pnid s2 ->
            (plast s <> None -> plast s2 <> None) ->
            wp (let! ins := (fun s => match plast s with
                              | Some l => Ok (rcur (trange l), s)
                              | None => lCur s
                              end) in
        let! f := fix1 (b "insert " ++ spelling k) (mkInsertion ins (spelling k)) in
        do! emit (d_fix f (d_arg (spelling k) (diag0 DK_Expected (point ins)))) in
        ret None) (fun (a : option token) s2 => Inv s2 /\ psync s2 = k :: psync s /\
        forall s3, Inv s3 -> psync s3 = psync s ->
          pbuf s3 = pbuf s2 -> plast s3 = plast s2 -> pmodes s3 = pmodes s2 -> mode s3 = mode s2 ->
          basec s3 = basec s2 -> base s3 = base s2 -> lastc s3 = lastc s2 -> lastpos s3 = lastpos s2 ->
          nd s3 = nd s2 -> pnid s3 = pnid s2 -> Q a s3) s2).
  { intros s2 I2 M1 M2 M3 M4 M5 M6 M7 M8. apply wp_bind.
    assert (Hfin : forall ins s3, Inv s3 -> mode s3 = mode s -> psync s3 = k :: psync s -> pmodes s3 = pmodes s ->
            base s <= base s3 -> lastpos s <= lastpos s3 -> nd s <= nd s3 -> pnid s <= pnid s3 ->
            (plast s <> None -> plast s3 <> None) -> cursor_in src ins ->
            wp (let! f := fix1 (b "insert " ++ spelling k) (mkInsertion ins (spelling k)) in
        do! emit (d_fix f (d_arg (spelling k) (diag0 DK_Expected (point ins)))) in
        ret None) (fun (a : option token) s2 => Inv s2 /\ psync s2 = k :: psync s /\
        forall s3, Inv s3 -> psync s3 = psync s ->
          pbuf s3 = pbuf s2 -> plast s3 = plast s2 -> pmodes s3 = pmodes s2 -> mode s3 = mode s2 ->
          basec s3 = basec s2 -> base s3 = base s2 -> lastc s3 = lastc s2 -> lastpos s3 = lastpos s2 ->
          nd s3 = nd s2 -> pnid s3 = pnid s2 -> Q a s3) s3).
    { clear s2 I2 M1 M2 M3 M4 M5 M6 M7 M8. intros ins s2 I2 M1 M2 M3 M4 M5 M6 M7 M8 Hin.
      apply wp_bind, wp_fix1_ins; [exact Hk|]. apply wp_bind, wp_emit; auto.
      { apply dok_fix; [apply fix_one, edit_ins; auto|apply keeps_insert; [apply ins_inserts|reflexivity]|]. apply dok_1; [now apply range_point|reflexivity]. }
      intros s3 I3 S3 N3. apply wp_ret. destruct S3. split; [exact I3|]. split; [congruence|].
      intros s4 I4 B1 B2 B3 B4 B5 B6 B7 B8 B9 B10 B11. apply HN; auto; [|lia].
      constructor; try congruence; try lia. intros X. specialize (M8 X). congruence. }
    unfold wp at 1. destruct (plast s2) as [l|] eqn:El.
    - apply Hfin; auto; [congruence|].
      replace (rcur (trange l)) with (lastc s2) by (unfold lastc; now rewrite El). apply lastc_in; congruence.
    - change (wp lCur (fun a s' => wp (let! f := fix1 (b "insert " ++ spelling k) (mkInsertion a (spelling k)) in
        do! emit (d_fix f (d_arg (spelling k) (diag0 DK_Expected (point a)))) in
        ret None) (fun (a : option token) s2 => Inv s2 /\ psync s2 = k :: psync s /\
        forall s3, Inv s3 -> psync s3 = psync s ->
          pbuf s3 = pbuf s2 -> plast s3 = plast s2 -> pmodes s3 = pmodes s2 -> mode s3 = mode s2 ->
          basec s3 = basec s2 -> base s3 = base s2 -> lastc s3 = lastc s2 -> lastpos s3 = lastpos s2 ->
          nd s3 = nd s2 -> pnid s3 = pnid s2 -> Q a s3) s') s2).
      apply wp_bind. apply wp_peek0; auto.
      intros t bf s3 I3 E3 (P1 & P2 & P3 & P4 & P5 & P6 & P7 & P8 & P9 & P10) St Eb1 Eb2.
      apply wp_ret. apply Hfin; auto; try congruence; try lia; [|apply P10].
      intros X. specialize (M8 X). congruence. }
  apply wp_bind. apply wp_peek0; auto.
  intros t bf s2 I2 E2 (P1 & P2 & P3 & P4 & P5 & P6 & P7 & P8 & P9 & P10) St Eb1 Eb2.
  destruct (tkind_beq (tk t) k) eqn:Et.
  - apply wp_ret. split; [exact I2|]. split; [congruence|].
    intros s3 I3 B1 B2 B3 B4 B5 B6 B7 B8 B9 B10 B11. apply (HS s3 t bf); auto; try congruence; try (rewrite <- A5; exact P10).
    + constructor; try congruence; try lia.
    + now apply tkind_beq_eq.
    + intros _. split; [congruence|]. unfold starts in *. rewrite A5, A6, A7, A2 in St. exact St.
  - apply wp_bind. apply wp_removeUnexpected; auto; [congruence| |].
    + intros s3 t3 bf3 I3 M3 E3 L3 L3' N3. apply wp_bind. apply wp_bind.
      apply (wp_peek_front t3 bf3); auto. apply wp_ret. destruct M3.
      destruct (tkind_beq (tk t3) k) eqn:Et3.
      * apply wp_ret. split; [exact I3|]. split; [congruence|].
        intros s4 I4 B1 B2 B3 B4 B5 B6 B7 B8 B9 B10 B11.
        destruct (front_ok t3 bf3 s3 I3 E3) as (F1 & F2 & F3 & F4). apply (HS s4 t3 bf3); auto; try congruence; try lia;
          try (rewrite <- A5, <- P3, <- md_mode0; exact F1).
        -- constructor; try congruence; try lia.
        -- now apply tkind_beq_eq.
      * apply Hno; auto; try congruence; try lia.
    + intros s3 t3 bf3 I3 M3 E3 L3. apply wp_bind, wp_ret. destruct M3. apply Hno; auto; try congruence; try lia.
      intros X. apply md_has0. congruence.
Qed.

End Inv.

Ltac listed := cbn [In dummies marked_titles longer_titles]; repeat first [left; reflexivity|right].
(** the removal of a token whose kind is known *)
Ltac tokr :=
  match goal with |- removes _ _ (TEdit (trange ?t) []) =>
    match goal with H : tokok _ _ t |- _ => eapply tok_removes; [exact H|] end;
    match goal with H : tk t = _ |- _ => rewrite H; reflexivity end
  end.
