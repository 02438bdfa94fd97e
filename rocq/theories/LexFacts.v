(** Proofs of the theorems stated in LexProps. *)
From Verif Require Import Base Diag LexModel LexSpec LexProofs.

Lemma C01_refuted_proof :
  (exists src ts s why, session src s ts /\ lex_mode PS_String s = Crash why) /\
  (exists src ts s why, session src s ts /\ lex_mode PS_IndString s = Crash why).
Proof.
  split.
  - exists (b """\"). do 2 eexists. exists "Lexer::consume past the end"%string. split.
    + eapply (session_lex _ PS_Expr); [apply session_start|]. vm_compute. reflexivity.
    + reflexivity.
  - exists (b "''''\"). do 2 eexists. exists "Lexer::consume past the end"%string. split.
    + eapply (session_lex _ PS_Expr); [apply session_start|]. vm_compute. reflexivity.
    + reflexivity.
Qed.

Lemma C01_partial_proof :
  forall src s ts, session src s ts ->
    (forall m,
      let left := skipn (off (cur s)) src in
      let bad := (m = PS_String /\ left = b "\") \/ (m = PS_IndString /\ left = b "''\") in
      (~ bad -> exists t s', lex_mode m s = Ok (t, s')) /\
      (bad -> exists why, lex_mode m s = Crash why)) /\
    (forall c, cursor_in src c -> exists s', setCur src c s = Ok s').
Proof.
  intros src s ts H. apply session_inv in H as (G & _ & _). split; [|intros; now apply setCur_ok].
  intros m left bad. subst left bad. rewrite <- (good_rest _ _ G).
  change ((m = PS_String /\ rest s = b "\") \/ (m = PS_IndString /\ rest s = b "''\")) with (crashing m (rest s)).
  destruct (lex_mode_spec m s) as [[Hb [why E]]|[Hb (w & k & v & s1 & s2 & E & _)]].
  - split; [intros Hn; now elim Hn|intros _; now exists why].
  - split; [intros _; rewrite E; eauto|intros Hn; now elim Hb].
Qed.

Lemma C02_progress_proof :
  forall src s ts m t s', session src s ts -> lex_mode m s = Ok (t, s') -> off (cur s) < List.length src ->
    off (cur s) < off (cur s') \/ tk t = tok_path_end.
Proof.
  intros src s ts m t s' H E Hlt. apply session_inv in H as (G & _ & _).
  destruct (lex_mode_progress _ _ _ _ _ G E Hlt); auto.
Qed.

Lemma C02_terminates_proof :
  forall src, exists ts s, lex_all src = Ok (ts, s) /\ List.length ts <= List.length src + 1 /\
    exists init last, ts = init ++ [last] /\ tk last = tok_eof.
Proof.
  intros src. destruct (lex_all_spec src) as (ts & s & E & T & L). exists ts, s.
  split; [exact E|]. split; [lia|]. clear E L. induction T as [o w t _ Hk _ _ _|o w v more t ts _ _ _ _ _ _ T IH].
  - exists [], t. auto.
  - destruct IH as (i & l & -> & Hl). exists (t :: i), l. auto.
Qed.

Lemma C03_faithful_proof :
  forall src s ts, session src s ts -> Forall (token_faithful src) ts.
Proof. intros src s ts H. now apply session_inv in H as (_ & F & _). 
Qed.

Lemma C03_tiling_proof : forall src ts s, lex_all src = Ok (ts, s) -> tiled 0 src ts.
Proof. intros src ts s E. destruct (lex_all_spec src) as (ts' & s' & E' & T & _). congruence. 
Qed.

Lemma C04_line_column_proof :
  forall src s ts, session src s ts ->
    cursor_in src (cur s) /\
    Forall (fun t => cursor_in src (lcur (trange t)) /\ cursor_in src (rcur (trange t))) ts /\
    Forall (fun d => Forall (cursor_in src) (diag_cursors d)) (diags s).
Proof.
  intros src s ts H. apply session_inv in H as (G & F & D). split; [now apply good_cur|]. split; [|exact D].
  eapply Forall_impl; [|exact F]. intros t (H1 & H2 & _). auto.
Qed.

Lemma C04_cursor_unique_proof :
  forall src c d, cursor_in src c -> cursor_in src d -> off c = off d -> c = d.
Proof.
  intros src c d (p & q & E & C) (p' & q' & E' & D) Ho.
  assert (p = p').
  { destruct C as (O1 & _), D as (O2 & _). subst src.
    assert (H : firstn (List.length p) (p ++ q) = firstn (List.length p) (p' ++ q')) by now rewrite E'.
    rewrite !firstn_app, Nat.sub_diag, firstn_all in H.
    replace (List.length p) with (List.length p') in H by congruence.
    rewrite Nat.sub_diag, firstn_all in H. simpl in H. now rewrite !app_nil_r in H. }
  subst p'. now apply (cursor_after_fun p).
Qed.

Lemma C05_refuted_proof :
  ~ spelling_claim /\
  (exists t s, lex (lex_init (b "|||>")) = Ok (t, s) /\ tk t = tok_op_pipe_into /\ tview t = b "|||>") /\
  (exists t s, lex (lex_init (b "<a/>")) = Ok (t, s) /\ tk t = tok_spath /\ tview t = b "<a/>").
Proof.
  split; [|split].
  - intros H. specialize (H (b "|||>") _ _ PS_Expr _ _ (session_start _) eq_refl).
    simpl in H. inversion H as [k v Hin| | | | | | | | | | | | | | | | | | | | | | | | |]; subst.
    simpl in Hin. repeat (destruct Hin as [Hin|Hin]; [discriminate|]). destruct Hin.
  - do 2 eexists. split; [reflexivity|]. auto.
  - do 2 eexists. split; [reflexivity|]. auto.
Qed.

Lemma C05_partial_proof :
  forall s m t s', lex_mode m s = Ok (t, s') ->
    spelled m (tk t) (tview t) \/
    (m = PS_Expr /\ tk t = tok_op_pipe_into /\ tview t = b "|||>") \/
    (m = PS_Expr /\ tk t = tok_spath /\ exists v, tview t = b "<" ++ v ++ b "/>").
Proof.
  intros s m t s' E.
  destruct (lex_mode_spec m s) as [[_ [why E']]|[_ (w & k & v & s1 & s2 & E' & _ & _ & _ & _ & _ & Hsp)]];
    [congruence|].
  rewrite E in E'. injection E' as -> ->. simpl.
  destruct Hsp as [Hsp|[-> [[-> ->]|[-> (c & u & segs & _ & _ & _ & ->)]]]]; auto.
  right. right. split; auto. split; auto. exists ((c :: u) ++ flat_map (fun s => b "/" ++ s) segs).
  now rewrite <- !app_assoc.
Qed.
