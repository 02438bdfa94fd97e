(** Lemmas for C67: the diagnostics of the lexer are exactly the lexical errors. *)
From Verif Require Import Base Diag LexModel LexSpec LexProofs LexLongSpec LexLongProofs.

(** ** The decomposition of a text into trivia and an open comment *)
Definition openc (left w body : bytes) : Prop :=
  left = w ++ b "/*" ++ body /\ trivia w (b "/*" ++ body) /\ ~ occurs (b "*/") body.

Lemma blank_not c : blank c -> c <> "/"%char /\ c <> "#"%char.
Proof. intros H. unfold blank in H. simpl in H. split; intros ->; repeat (destruct H as [H|H]; [discriminate H|]); exact H. Qed.

Lemma open_inv left w body : openc left w body ->
  (w = [] /\ left = b "/*" ++ body /\ ~ occurs (b "*/") body) \/
  (exists c w2 q, blank c /\ w = c :: w2 /\ left = c :: q /\ openc q w2 body) \/
  (exists bd w2 q, ~ occurs (b "*/") (bd ++ b "*") /\ w = b "/*" ++ bd ++ b "*/" ++ w2 /\
     left = b "/*" ++ bd ++ b "*/" ++ q /\ openc q w2 body) \/
  (exists bd w2 q, ~ In lf bd /\ w = b "#" ++ bd ++ [lf] ++ w2 /\ left = b "#" ++ bd ++ [lf] ++ q /\ openc q w2 body).
Proof.
  intros (E & T & N). remember (b "/*" ++ body) as after eqn:Ha. destruct T as [after|c w after Hc T|bd w after Hb T|bd Hb|bd w after Hb T|bd Hb].
  - left. subst. auto.
  - right. left. exists c, w, (w ++ after). subst. repeat split; auto.
  - right. right. left. exists bd, w, (w ++ after). split; [exact Hb|]. split; [reflexivity|]. split.
    + subst left. now rewrite <- !app_assoc.
    + subst after. repeat split; auto.
  - discriminate.
  - right. right. right. exists bd, w, (w ++ after). split; [exact Hb|]. split; [reflexivity|]. split.
    + subst left. now rewrite <- !app_assoc.
    + subst after. repeat split; auto.
  - discriminate.
Qed.

(** the first place where a pattern of two different characters occurs *)
Lemma first_close a q a' q' :
  ~ occurs (b "*/") (a ++ b "*") -> ~ occurs (b "*/") (a' ++ b "*") -> a ++ b "*/" ++ q = a' ++ b "*/" ++ q' ->
  a = a' /\ q = q'.
Proof.
  revert a'. induction a as [|c a IH]; intros [|c' a'] H1 H2 E.
  - injection E as E. auto.
  - exfalso. apply H2. simpl in E. injection E as <- E. destruct a' as [|d a']; simpl in E; injection E as E1 E2.
    + discriminate.
    + subst d. exists [], (a' ++ b "*"). reflexivity.
  - exfalso. apply H1. simpl in E. injection E as -> E. destruct a as [|d a]; simpl in E; injection E as E1 E2.
    + discriminate.
    + subst d. exists [], (a ++ b "*"). reflexivity.
  - simpl in E. injection E as -> E. destruct (IH a') as [-> ->]; auto.
    + intros (x & y & Hx). apply H1. exists (c' :: x), y. exact (f_equal (cons c') Hx).
    + intros (x & y & Hx). apply H2. exists (c' :: x), y. exact (f_equal (cons c') Hx).
Qed.

Lemma first_lf a q a' q' : ~ In lf a -> ~ In lf a' -> a ++ [lf] ++ q = a' ++ [lf] ++ q' -> a = a' /\ q = q'.
Proof.
  revert a'. induction a as [|c a IH]; intros [|c' a'] H1 H2 E.
  - injection E as E. auto.
  - injection E as E1 _. exfalso. apply H2. now left.
  - injection E as E1 _. exfalso. apply H1. now left.
  - simpl in E. injection E as -> E. destruct (IH a') as [-> ->]; auto; intros H; [apply H1|apply H2]; now right.
Qed.

Lemma open_blank c q w body : blank c -> openc (c :: q) w body -> exists w2, w = c :: w2 /\ openc q w2 body.
Proof.
  intros Hc H. destruct (blank_not c Hc) as [N1 N2].
  destruct (open_inv _ _ _ H) as [(_ & E & _)|[(d & w2 & q2 & _ & -> & E & O)|[(bd & w2 & q2 & _ & _ & E & _)|(bd & w2 & q2 & _ & _ & E & _)]]];
    injection E as E1 E2; try congruence.
  subst. eauto.
Qed.

Lemma open_blanks v q w body : Forall blank v -> openc (v ++ q) w body -> exists w2, w = v ++ w2 /\ openc q w2 body.
Proof.
  intros Hv. revert w. induction Hv as [|c v Hc _ IH]; intros w H; simpl in *; [eauto|].
  destruct (open_blank _ _ _ _ Hc H) as (w2 & -> & H2). destruct (IH _ H2) as (w3 & -> & H3). eauto.
Qed.

Lemma open_closed bd q w body : ~ occurs (b "*/") (bd ++ b "*") -> openc (b "/*" ++ bd ++ b "*/" ++ q) w body ->
  exists w2, w = (b "/*" ++ bd ++ b "*/") ++ w2 /\ openc q w2 body.
Proof.
  intros Hb H.
  destruct (open_inv _ _ _ H) as [(_ & E & N)|[(d & w2 & q2 & Hd & -> & E & O)|[(bd2 & w2 & q2 & Hb2 & -> & E & O)|(bd2 & w2 & q2 & _ & _ & E & _)]]].
  - exfalso. apply app_inv_head in E. subst body. apply N. exists bd, q. reflexivity.
  - injection E as E1 E2. subst d. destruct (blank_not _ Hd). congruence.
  - apply app_inv_head in E. destruct (first_close _ _ _ _ Hb Hb2 E) as [<- <-].
    exists w2. split; [now rewrite <- !app_assoc|exact O].
  - discriminate.
Qed.

Lemma open_line bd q w body : ~ In lf bd -> openc (b "#" ++ bd ++ [lf] ++ q) w body ->
  exists w2, w = (b "#" ++ bd ++ [lf]) ++ w2 /\ openc q w2 body.
Proof.
  intros Hb H.
  destruct (open_inv _ _ _ H) as [(_ & E & N)|[(d & w2 & q2 & Hd & -> & E & O)|[(bd2 & w2 & q2 & Hb2 & -> & E & O)|(bd2 & w2 & q2 & Hb2 & -> & E & O)]]].
  - discriminate.
  - injection E as E1 E2. subst d. destruct (blank_not _ Hd). congruence.
  - discriminate.
  - apply app_inv_head in E. destruct (first_lf _ _ _ _ Hb Hb2 E) as [<- <-].
    exists w2. split; [now rewrite <- !app_assoc|exact O].
Qed.

Lemma open_here body0 w body : ~ occurs (b "*/") body0 -> openc (b "/*" ++ body0) w body -> w = [] /\ body = body0.
Proof.
  intros Hb H.
  destruct (open_inv _ _ _ H) as [(-> & E & N)|[(d & w2 & q2 & Hd & -> & E & O)|[(bd2 & w2 & q2 & Hb2 & -> & E & O)|(bd2 & w2 & q2 & Hb2 & -> & E & O)]]].
  - apply app_inv_head in E. auto.
  - injection E as E1 E2. subst d. destruct (blank_not _ Hd). congruence.
  - exfalso. apply Hb. apply app_inv_head in E. subst body0. now exists bd2, q2.
  - discriminate.
Qed.

Lemma open_hash body0 w body : ~ In lf body0 -> ~ openc (b "#" ++ body0) w body.
Proof.
  intros Hb H.
  destruct (open_inv _ _ _ H) as [(-> & E & N)|[(d & w2 & q2 & Hd & -> & E & O)|[(bd2 & w2 & q2 & Hb2 & -> & E & O)|(bd2 & w2 & q2 & Hb2 & -> & E & O)]]].
  - discriminate.
  - injection E as E1 E2. subst d. destruct (blank_not _ Hd). congruence.
  - discriminate.
  - apply Hb. apply app_inv_head in E. subst body0. apply in_or_app. right. now left.
Qed.

Lemma open_none left w body : (match left with [] => True | c :: _ => ~ blank c end) ->
  (forall q, left <> b "/*" ++ q) -> (forall q, left <> b "#" ++ q) -> ~ openc left w body.
Proof.
  intros H1 H2 H3 H.
  destruct (open_inv _ _ _ H) as [(-> & E & N)|[(d & w2 & q2 & Hd & -> & E & O)|[(bd2 & w2 & q2 & Hb2 & -> & E & O)|(bd2 & w2 & q2 & Hb2 & -> & E & O)]]].
  - eapply H2; eauto.
  - subst left. auto.
  - eapply H2; eauto.
  - eapply H3; eauto.
Qed.

Definition comment_diag (w body : bytes) (p : cursor) : diag :=
  let c1 := advs w p in let c2 := advs (w ++ b "/*") p in let e := advs (w ++ b "/*" ++ body) p in
  Diag_ DK_UnterminatedBComment (mkRange e e) [] [Note_ NK_BCommentBegin (mkRange c1 c2) []]
        [Fix_ (b "insert */") [TEdit (mkRange e e) (b "*/")]] [].

(** [told s s']: the new diagnostics are those of the open comment *)
Definition told (s s' : lst) : Prop :=
  (diags s' = diags s /\ forall w body, ~ openc (rest s) w body) \/
  (exists w body, rest s' = [] /\ openc (rest s) w body /\ (forall w' body', openc (rest s) w' body' -> w' = w /\ body' = body) /\
     diags s' = comment_diag w body (cur s) :: diags s).

Lemma advs_app v w p : advs (v ++ w) p = advs w (advs v p).
Proof. unfold advs. apply fold_left_app. Qed.

(** skipping a closed piece of trivia does not change what is to be told *)
Lemma told_skip v s s1 s' : mv0 v s s1 ->
  (forall w body, openc (v ++ rest s1) w body -> exists w2, w = v ++ w2 /\ openc (rest s1) w2 body) ->
  (forall w2 body, openc (rest s1) w2 body -> openc (v ++ rest s1) (v ++ w2) body) ->
  told s1 s' -> told s s'.
Proof.
  intros (A1 & A2 & A3) H1 H2 [(D & N)|(w & body & Z & O & U & D)].
  - left. rewrite D, A3. split; [reflexivity|]. rewrite A1. intros w body O. destruct (H1 _ _ O) as (w2 & _ & O2). now apply (N w2 body).
  - right. exists (v ++ w), body. rewrite A1. split; [exact Z|]. split; [now apply H2|]. split.
    + intros w' body' O'. destruct (H1 _ _ O') as (w2 & -> & O2). destruct (U _ _ O2) as [-> ->]. auto.
    + rewrite D, A3, A2. unfold comment_diag. rewrite <- !app_assoc, <- !advs_app. reflexivity.
Qed.

Lemma isspace_back c : blank c -> isspace c = true.
Proof. intros H. unfold blank in H. simpl in H. repeat (destruct H as [<-|H]; [reflexivity|]). destruct H. Qed.

Lemma trivia_told fuel s s' : List.length (rest s) < fuel -> consumeTrivia_f fuel s = Ok s' -> told s s'.
Proof.
  revert s. induction fuel as [|fuel IH]; intros s Hf; [lia|]. cbn [consumeTrivia_f].
  unfold eof at 1. destruct (rest s) as [|c r] eqn:Hr.
  { intros [= <-]. left. split; [reflexivity|]. rewrite Hr. intros w body. apply open_none; auto; discriminate. }
  destruct (consumeWhitespaces_spec s c r Hr) as [(w & s1 & -> & Hne & Hmv & Hb)| Ew]; [cbn [bind]|].
  { intros E. assert (HL : List.length (rest s1) < fuel).
    { destruct Hmv as (A1 & _). rewrite Hr in A1. apply (f_equal (@List.length _)) in A1. rewrite app_length in A1.
      destruct w; [congruence|]. simpl in A1, Hf. lia. }
    apply (told_skip w s s1 s' Hmv); [| |exact (IH s1 HL E)].
    - intros w0 body. now apply open_blanks.
    - intros w2 body (O1 & O2 & O3). split; [now rewrite O1, app_assoc|]. split; [now apply trivia_blanks|exact O3]. }
  assert (Hnb : ~ blank c).
  { intros Hbl. unfold consumeWhitespaces, lpeek in Ew. rewrite Hr, (isspace_back c Hbl), (consume1_spec c r s Hr) in Ew. discriminate. }
  rewrite Ew. cbn [bind]. unfold consumeComments, eof. rewrite Hr. cbn iota.
  destruct (consumePrefix_spec (b "/*") s) as [(q & Eq & ->)|(Nq & ->)]; cbn [bind].
  - cbn [rest cur diags].
    destruct (bcomment_spec q (advs (b "/*") (cur s))) as [(bd & q2 & H1 & H2 & H3)|[H1 H2]].
    + rewrite H3. cbn [bind]. intros E. subst q.
      assert (M : mv0 (b "/*" ++ bd ++ b "*/") s (Lst (advs (bd ++ b "*/") (advs (b "/*") (cur s))) q2 (diags s))).
      { split; [|split; reflexivity]. cbn [rest]. rewrite Eq. now rewrite <- !app_assoc. }
      apply (told_skip _ _ _ s' M).
      * cbn [rest]. intros w body O. apply open_closed; [exact H2|]. now rewrite <- !app_assoc in O.
      * cbn [rest]. intros w2 body (O1 & O2 & O3). rewrite <- !app_assoc. split; [now rewrite O1, <- !app_assoc|]. split; [now apply trivia_block|exact O3].
      * apply IH; [|exact E]. cbn [rest]. rewrite Hr in Eq. apply (f_equal (@List.length _)) in Eq. rewrite !app_length in Eq. simpl in Eq, Hf. lia.
    + rewrite H2. rewrite mkInsertion_ok; [|discriminate]. cbn [bind]. destruct fuel; [discriminate|]. cbn. intros [= <-].
      right. exists [], q. split; [reflexivity|]. split; [repeat split; [exact Eq|apply trivia_nil|exact H1]|]. split.
      * intros w' body' O. apply open_here; [exact H1|]. rewrite <- Eq. exact O.
      * cbn [diags]. reflexivity.
  - destruct (consumePrefix_spec (b "#") s) as [(q & Eq & ->)|(Nq2 & ->)]; cbn [bind].
    + cbn [rest cur diags].
      destruct (lcomment_spec q (advs (b "#") (cur s))) as [(bd & q2 & H1 & H2 & H3)|[H1 H2]].
      * rewrite H3. cbn [bind]. intros E. subst q.
        assert (M : mv0 (b "#" ++ bd ++ [lf]) s (Lst (advs (bd ++ [lf]) (advs (b "#") (cur s))) q2 (diags s))).
        { split; [|split; reflexivity]. cbn [rest]. rewrite Eq. now rewrite <- !app_assoc. }
        apply (told_skip _ _ _ s' M).
        -- cbn [rest]. intros w body O. apply open_line; [exact H2|]. now rewrite <- !app_assoc in O.
        -- cbn [rest]. intros w2 body (O1 & O2 & O3). rewrite <- !app_assoc. split; [now rewrite O1, <- !app_assoc|]. split; [now apply trivia_line|exact O3].
        -- apply IH; [|exact E]. cbn [rest]. rewrite Hr in Eq. apply (f_equal (@List.length _)) in Eq. rewrite !app_length in Eq. simpl in Eq, Hf. lia.
      * rewrite H2. cbn [bind]. destruct fuel; [discriminate|]. cbn. intros [= <-].
        left. split; [reflexivity|]. rewrite Eq. intros w body. now apply open_hash.
    + intros [= <-]. left. split; [reflexivity|]. intros w body. apply open_none; auto. now rewrite Hr.
Qed.

(** ** Numbers *)
Definition exp_diag (x : ascii) (e : cursor) : diag := Diag_ DK_FloatNoExp (mkRange e e) [[x]] [] [] [].
Definition zero_diag (c : ascii) (l e : cursor) : diag := Diag_ DK_FloatLeadingZero (mkRange l e) [["0"%char; c]] [] [] [].

Definition exp_shape (ex : bytes) (e : cursor) (ne : list diag) : Prop :=
  (ex = [] /\ ne = []) \/
  exists x sign dd, one_of (b "eE") x /\ In sign [[]; b "+"; b "-"] /\ Forall digit dd /\ ex = x :: sign ++ dd /\
    ((dd = [] /\ ne = [exp_diag x e]) \/ (dd <> [] /\ ne = [])).

Definition zero_shape (d : ascii) (w : bytes) (l : cursor) (nz : list diag) : Prop :=
  (exists c w', d = "0"%char /\ w = c :: w' /\ nz = [zero_diag c l (advs (d :: w) l)]) \/
  ((d <> "0"%char \/ w = []) /\ nz = []).

Lemma floatExp_told s s' : lexFloatExp s = Ok s' ->
  exists ex ne, rest s = ex ++ rest s' /\ cur s' = advs ex (cur s) /\ diags s' = ne ++ diags s /\ exp_shape ex (cur s') ne.
Proof.
  unfold lexFloatExp.
  destruct (consumeOneOf_spec (b "Ee") s) as [(x & r & Hr & Hx & ->)| ->]; cbn [bind].
  2: { intros [= <-]. exists [], []. repeat split. left. auto. }
  set (s1 := Lst _ _ _).
  assert (M1 : mv0 [x] s s1) by (now repeat split).
  assert (exists sign s2, consumeOneOf (b "+-") s1 = Ok (match sign with [] => None | c :: _ => Some c end, s2)
            /\ mv0 sign s1 s2 /\ In sign [[]; b "+"; b "-"]) as (sign & s2 & -> & M2 & Hsign).
  { destruct (consumeOneOf_spec (b "+-") s1) as [(y & q & Hq & Hy & ->)| ->].
    - exists [y]. eexists. split; [reflexivity|]. split; [now repeat split|].
      destruct Hy as [<-|[<-|[]]]; simpl; auto.
    - exists [], s1. simpl. auto using mv0_refl. }
  cbn [bind].
  assert (Hx' : one_of (b "eE") x) by (destruct Hx as [<-|[<-|[]]]; simpl; auto).
  unfold consumeManyDigits. pose proof (mv0_trans _ _ _ _ _ M1 M2) as M12.
  destruct (consumeMany_spec (fun c => mem_char c (b "0123456789")) s2) as [(c & w & s3 & -> & M3 & Hw & _)|[-> _]].
  - intros [= <-]. pose proof (mv0_trans _ _ _ _ _ M12 M3) as (B1 & B2 & B3).
    exists (([x] ++ sign) ++ c :: w), []. repeat split; auto.
    right. exists x, sign, (c :: w). split; [exact Hx'|]. split; [exact Hsign|]. split; [apply (Forall_class _ _ _ digits_digit Hw)|].
    split; [reflexivity|]. right. split; [discriminate|reflexivity].
  - intros [= <-]. destruct M12 as (B1 & B2 & B3). exists ([x] ++ sign), [exp_diag x (cur s2)].
    split; [exact B1|]. split; [exact B2|]. split; [simpl; rewrite B3; reflexivity|].
    right. exists x, sign, []. split; [exact Hx'|]. split; [exact Hsign|]. split; [constructor|].
    rewrite app_nil_r. split; [reflexivity|]. left. split; reflexivity.
Qed.

Lemma digit_not_dot c : digit c -> c <> "."%char.
Proof. intros H ->. unfold digit, one_of in H. simpl in H. repeat (destruct H as [H|H]; [discriminate H|]). exact H. Qed.

Lemma numbers_told s c r k s' : rest s = c :: r -> isdigit c = true -> lexNumbers s = Ok (k, s') ->
  (k = tok_int /\ diags s' = diags s) \/
  (k = tok_float /\ exists d w f ex nz ne, rest s = ((d :: w) ++ b "." ++ f ++ ex) ++ rest s' /\
     cur s' = advs ((d :: w) ++ b "." ++ f ++ ex) (cur s) /\
     Forall digit (d :: w) /\ Forall digit f /\ exp_shape ex (cur s') ne /\ zero_shape d w (cur s) nz /\
     diags s' = nz ++ ne ++ diags s).
Proof.
  intros Hr Hc. unfold lexNumbers.
  unfold consumeManyDigits at 1.
  destruct (consumeMany_spec (fun c => mem_char c (b "0123456789")) s) as [(d & w & s1 & -> & M1 & Hw & _)|[_ Hbad]].
  2: { rewrite Hr in Hbad. apply (impl_on_spec isdigit) with (q := fun c => mem_char c (b "0123456789")) in Hc;
       [congruence|vm_compute; reflexivity]. }
  cbn [negb]. apply (Forall_class _ digit) in Hw; [|exact digits_digit].
  inversion Hw as [|? ? Hd Hw']; subst.
  unfold lpeek_is. destruct (rest s1) as [|e q] eqn:Hq.
  { intros [= <- <-]. left. split; [reflexivity|apply M1]. }
  destruct (Ascii.eqb e ".") eqn:E.
  2: { intros [= <- <-]. left. split; [reflexivity|apply M1]. }
  apply Ascii.eqb_eq in E. subst e.
  rewrite (consume1_spec _ _ _ Hq). cbn [bind]. set (s2 := Lst _ _ _).
  assert (M2 : mv0 [("."%char)] s1 s2) by (now repeat split).
  assert (exists f bo s3, consumeManyDigits s2 = (bo, s3) /\ mv0 f s2 s3 /\ Forall digit f)
    as (f & bo & s3 & -> & M3 & Hf).
  { unfold consumeManyDigits.
    destruct (consumeMany_spec (fun c => mem_char c (b "0123456789")) s2) as [(c3 & w3 & s3 & -> & M3 & Hw3 & _)|[-> _]].
    - exists (c3 :: w3), true, s3. split; [reflexivity|]. split; auto. apply (Forall_class _ _ _ digits_digit Hw3).
    - exists [], false, s2. auto using mv0_refl. }
  destruct (lexFloatExp s3) as [s4| |] eqn:E4; cbn [bind]; try discriminate.
  destruct (floatExp_told _ _ E4) as (ex & ne & X1 & X2 & X3 & X4).
  pose proof (mv0_trans _ _ _ _ _ M1 (mv0_trans _ _ _ _ _ M2 M3)) as (B1 & B2 & B3).
  assert (R : rest s = ((d :: w) ++ b "." ++ f ++ ex) ++ rest s4).
  { rewrite B1, X1. change (b ".") with ["."%char]. now rewrite <- !app_assoc. }
  assert (C : cur s4 = advs ((d :: w) ++ b "." ++ f ++ ex) (cur s)).
  { rewrite X2, B2. rewrite <- advs_app. f_equal. now rewrite <- !app_assoc. }
  destruct M1 as (A1 & A2 & A3).
  assert (FIN : forall s5 nz, rest s5 = rest s4 -> cur s5 = cur s4 -> diags s5 = nz ++ diags s4 -> zero_shape d w (cur s) nz ->
    Ok (tok_float, s5) = Ok (k, s') ->
   (k = tok_int /\ diags s' = diags s) \/
  (k = tok_float /\ exists d w f ex nz ne, rest s = ((d :: w) ++ b "." ++ f ++ ex) ++ rest s' /\
     cur s' = advs ((d :: w) ++ b "." ++ f ++ ex) (cur s) /\
     Forall digit (d :: w) /\ Forall digit f /\ exp_shape ex (cur s') ne /\ zero_shape d w (cur s) nz /\
     diags s' = nz ++ ne ++ diags s)).
  { intros s5 nz R5 C5 D5 Z [= <- <-]. right. split; [reflexivity|]. exists d, w, f, ex, nz, ne.
    rewrite R5, C5. repeat (split; [assumption|]). rewrite D5, X3, B3. reflexivity. }
  destruct w as [|c1 w1].
  - assert (P : firstn 2 (rest s) = [d; "."%char]) by (rewrite R; reflexivity). rewrite P.
    assert (N : (starts_with (b "0") [d; "."%char] && negb (bytes_eqb [d; "."%char] (b "0.")))%bool = false).
    { destruct (Ascii.eqb_spec d "0") as [->|Hd0]; [reflexivity|].
      destruct (starts_with (b "0") [d; "."%char]) eqn:Es; [|reflexivity]. exfalso.
      apply starts_with_spec in Es as [y Hy]. injection Hy as Hy _. congruence. }
    rewrite N. apply (FIN s4 []); auto. right. auto.
  - assert (P : firstn 2 (rest s) = [d; c1]) by (rewrite R; reflexivity). rewrite P.
    inversion Hw' as [|? ? Hc1 _]; subst.
    destruct (Ascii.eqb_spec d "0") as [->|Hd0].
    + assert (N : (starts_with (b "0") ["0"%char; c1] && negb (bytes_eqb ["0"%char; c1] (b "0.")))%bool = true).
      { apply andb_true_iff. split; [reflexivity|]. apply negb_true_iff.
        destruct (bytes_eqb ["0"%char; c1] (b "0.")) eqn:Eb; [|reflexivity]. exfalso.
        apply bytes_eqb_spec in Eb. injection Eb as ->. now apply (digit_not_dot _ Hc1). }
      rewrite N. apply (FIN _ [zero_diag c1 (cur s) (cur s1)]); [reflexivity|reflexivity|reflexivity|].
      left. exists c1, w1. rewrite A2. auto.
    + assert (N : (starts_with (b "0") [d; c1] && negb (bytes_eqb [d; c1] (b "0.")))%bool = false).
      { destruct (starts_with (b "0") [d; c1]) eqn:Es; [|reflexivity]. exfalso.
        apply starts_with_spec in Es as [y Hy]. injection Hy as Hy _. congruence. }
      rewrite N. apply (FIN s4 []); auto. right. auto.
Qed.

Lemma token_told s t s' : lexToken s = Ok (t, s') ->
  (tk t <> tok_float /\ diags s' = diags s) \/
  (tk t = tok_float /\ exists d w f ex nz ne, tview t = (d :: w) ++ b "." ++ f ++ ex /\
     trange t = mkRange (cur s) (cur s') /\ cur s' = advs (tview t) (cur s) /\ rest s = tview t ++ rest s' /\
     Forall digit (d :: w) /\ Forall digit f /\ exp_shape ex (cur s') ne /\ zero_shape d w (cur s) nz /\
     diags s' = nz ++ ne ++ diags s).
Proof.
  unfold lexToken, lpeek. destruct (rest s) as [|c r] eqn:Hr.
  { intros [= <- <-]. left. split; [discriminate|reflexivity]. }
  assert (Z : forall k s0 v, mv0 v s s0 -> k <> tok_float -> Ok (finishToken k s s0, s0) = Ok (t, s') ->
    tk t <> tok_float /\ diags s' = diags s).
  { intros k s0 v (_ & _ & D) Hk [= <- <-]. auto. }
  destruct (tryPath c s) as [[o s1]| |] eqn:EP; cbn [bind]; try discriminate. destruct o.
  { intros H. left. unfold tryPath in EP. match type of EP with (if ?z then _ else _) = _ => destruct z; [|discriminate] end.
    destruct (consumePathStart_spec s) as [(v & s0 & E & M & _)|E]; rewrite E in EP; [|discriminate]. injection EP as <-. refine (Z _ _ _ M _ H); discriminate. }
  destruct (tryURI c s) as [[o s2]| |] eqn:EU; cbn [bind]; try discriminate. destruct o.
  { intros H. left. unfold tryURI in EU. destruct (isalpha c) eqn:Ha; [|discriminate].
    destruct (consumeURI_spec s c r Hr Ha) as [(v & s0 & E & M & _)|E]; rewrite E in EU; [|discriminate]. injection EU as <-. refine (Z _ _ _ M _ H); discriminate. }
  destruct (isdigit c) eqn:Hd.
  { destruct (lexNumbers s) as [[k s3]| |] eqn:EN; cbn [bind]; try discriminate. intros [= <- <-].
    destruct (lexNumbers_spec s c r Hr Hd) as (k' & v & s4 & EN' & M & _). rewrite EN in EN'. injection EN' as <- <-.
    destruct (numbers_told _ _ _ _ _ Hr Hd EN) as [(-> & D)|(-> & d & w & f & ex & nz & ne & R & C & H1 & H2 & H3 & H4 & H5)].
    - left. split; [discriminate|exact D].
    - right. split; [reflexivity|]. exists d, w, f, ex, nz, ne.
      assert (V : v = (d :: w) ++ b "." ++ f ++ ex).
      { destruct M as (A1 & _). rewrite R in A1. now apply app_inv_tail in A1. }
      rewrite (finish_view _ _ _ _ M), V. split; [reflexivity|]. split; [reflexivity|]. rewrite <- Hr, R. auto 10. }
  destruct (isalpha c || Ascii.eqb c "_")%bool eqn:Hid.
  { destruct (lexIdentifier_spec s c r Hr Hid) as (w & s4 & -> & M & _). cbn [bind]. intros H. left. eapply Z; [exact M| |exact H].
    apply mv0_mv in M. rewrite (mv_slice _ _ _ M). destruct (maybeKW_spec (c :: w)) as [(Hk & _)|[Hk _]].
    - intros Ex. rewrite Ex in Hk. simpl in Hk. intuition discriminate.
    - rewrite Hk. discriminate. }
  destruct (trySPath c s) as [[o5 s5]| |] eqn:ES; cbn [bind]; try discriminate. destruct o5.
  { intros H. left. unfold trySPath in ES. destruct (Ascii.eqb_spec c "<") as [->|]; [|discriminate].
    destruct (consumeSPath_spec s r Hr) as [(v & s0 & E & M & _)|E]; rewrite E in ES; [|discriminate]. injection ES as <-. refine (Z _ _ _ M _ H); discriminate. }
  destruct (lexOp_spec c r s Hr) as (k & v & s6 & EO & M & Hcase). rewrite EO. cbn [bind].
  destruct (lexOp_kind c s k s6 EO) as (K1 & K2 & K3 & K4 & K5).
  destruct (tkind_beq k tok_unknown) eqn:Ek.
  - destruct Hcase as [[-> ->]|(Hu & _)]; [|now apply internal_tkind_dec_bl in Ek].
    destruct M as (B1 & B2 & B3). simpl in B1. rewrite Hr in B1. symmetry in B1. rewrite (consume1_spec _ _ _ B1). cbn [bind].
    intros [= <- <-]. left. split; [discriminate|exact B3].
  - intros H. left. eapply Z; eauto.
Qed.

(** ** Places *)
Lemma place_fun src o c c' : place src o c -> place src o c' -> c = c'.
Proof.
  intros ((p & q & E & C) & O) ((p' & q' & E' & C') & O').
  assert (p = p').
  { destruct C as (C & _), C' as (C' & _). assert (L : List.length p = List.length p') by lia.
    rewrite E in E'. clear - E' L. revert p' E' L. induction p as [|x p IH]; intros [|y p'] E L; simpl in *; try lia; auto.
    injection E as -> E. f_equal. auto. }
  subst p'. eapply cursor_after_fun; eauto.
Qed.

Lemma place_good src s v q : good src s -> rest s = v ++ q -> place src (off (cur s) + List.length v) (advs v (cur s)).
Proof.
  intros (pre & E & C) R. split; [|apply advs_off].
  exists (pre ++ v), q. split; [rewrite E, R; apply app_assoc|now apply cursor_after_advs].
Qed.

Lemma digits_dot w x w' x' : Forall digit w -> Forall digit w' -> w ++ b "." ++ x = w' ++ b "." ++ x' -> w = w'.
Proof.
  revert w'. induction w as [|c w IH]; intros [|c' w'] H1 H2 E; auto.
  - injection E as <- _. inversion H2; subst. exfalso. now apply (digit_not_dot "."%char).
  - injection E as -> _. inversion H1; subst. exfalso. now apply (digit_not_dot "."%char).
  - injection E as -> E. inversion H1; inversion H2; subst. f_equal. eauto.
Qed.

Definition tail_ok (c : ascii) : Prop := digit c \/ c = "."%char.
Definition exp_last (c : ascii) : Prop := In c (b "eE+-").
Lemma tail_exp c : tail_ok c -> exp_last c -> False.
Proof.
  intros H1 H2. unfold exp_last in H2. simpl in H2.
  repeat (destruct H2 as [<-|H2]; [destruct H1 as [H1|H1]; [|discriminate H1]; unfold digit, one_of in H1; simpl in H1;
    repeat (destruct H1 as [H1|H1]; [discriminate H1|]); exact H1|]). exact H2.
Qed.

Lemma snoc_last {A} (l : list A) x l' x' : l ++ [x] = l' ++ [x'] -> l = l' /\ x = x'.
Proof. apply app_inj_tail. Qed.

(** a text that ends with an exponent without digits has one such ending *)
Lemma exp_unique u x sign u' x' sign' : one_of (b "eE") x -> In sign [[]; b "+"; b "-"] ->
  one_of (b "eE") x' -> In sign' [[]; b "+"; b "-"] -> u ++ x :: sign = u' ++ x' :: sign' -> x = x'.
Proof.
  intros Hx Hs Hx' Hs' E.
  assert (K : forall y : ascii, one_of (b "eE") y -> y <> "+"%char /\ y <> "-"%char).
  { intros y [<-|[<-|[]]]; split; discriminate. }
  pose proof (K _ Hx) as [K1 K2]. pose proof (K _ Hx') as [K3 K4]. clear K.
  destruct Hs as [<-|[<-|[<-|[]]]]; destruct Hs' as [<-|[<-|[<-|[]]]]; simpl in E.
  - now apply snoc_last in E as [_ E].
  - change (u' ++ [x'; "+"%char]) with (u' ++ [x'] ++ ["+"%char]) in E. rewrite app_assoc in E. apply snoc_last in E as [_ E]. congruence.
  - change (u' ++ [x'; "-"%char]) with (u' ++ [x'] ++ ["-"%char]) in E. rewrite app_assoc in E. apply snoc_last in E as [_ E]. congruence.
  - change (u ++ [x; "+"%char]) with (u ++ [x] ++ ["+"%char]) in E. rewrite app_assoc in E. apply snoc_last in E as [_ E]. congruence.
  - change (u ++ [x; "+"%char]) with (u ++ [x] ++ ["+"%char]) in E. change (u' ++ [x'; "+"%char]) with (u' ++ [x'] ++ ["+"%char]) in E.
    rewrite !app_assoc in E. apply snoc_last in E as [E _]. now apply snoc_last in E as [_ E].
  - change (u ++ [x; "+"%char]) with (u ++ [x] ++ ["+"%char]) in E. change (u' ++ [x'; "-"%char]) with (u' ++ [x'] ++ ["-"%char]) in E.
    rewrite !app_assoc in E. apply snoc_last in E as [_ E]. discriminate.
  - change (u ++ [x; "-"%char]) with (u ++ [x] ++ ["-"%char]) in E. rewrite app_assoc in E. apply snoc_last in E as [_ E]. congruence.
  - change (u ++ [x; "-"%char]) with (u ++ [x] ++ ["-"%char]) in E. change (u' ++ [x'; "+"%char]) with (u' ++ [x'] ++ ["+"%char]) in E.
    rewrite !app_assoc in E. apply snoc_last in E as [_ E]. discriminate.
  - change (u ++ [x; "-"%char]) with (u ++ [x] ++ ["-"%char]) in E. change (u' ++ [x'; "-"%char]) with (u' ++ [x'] ++ ["-"%char]) in E.
    rewrite !app_assoc in E. apply snoc_last in E as [E _]. now apply snoc_last in E as [_ E].
Qed.

Lemma exp_ends u x sign : one_of (b "eE") x -> In sign [[]; b "+"; b "-"] -> exists l c, u ++ x :: sign = l ++ [c] /\ exp_last c.
Proof.
  intros Hx [<-|[<-|[<-|[]]]].
  - exists u, x. split; [reflexivity|]. destruct Hx as [<-|[<-|[]]]; unfold exp_last; simpl; auto.
  - exists (u ++ [x]), "+"%char. rewrite <- app_assoc. split; [reflexivity|unfold exp_last; simpl; auto].
  - exists (u ++ [x]), "-"%char. rewrite <- app_assoc. split; [reflexivity|unfold exp_last; simpl; auto].
Qed.

Lemma digits_end l : Forall digit l -> l <> [] -> exists l' c, l = l' ++ [c] /\ tail_ok c.
Proof.
  intros H Hn. destruct (exists_last Hn) as (l' & c & ->). exists l', c. split; [reflexivity|]. left.
  apply Forall_app in H as [_ H]. now inversion H.
Qed.

Lemma errors_lemma src s ts m t s' : session src s ts -> lex_mode m s = Ok (t, s') ->
  exists new, diags s' = new ++ diags s /\ NoDup new /\ (m <> PS_Expr -> new = []) /\
    (m = PS_Expr -> forall d, In d new <-> lexical_error src (off (cur s)) (rest s) t d).
Proof.
  intros Hs E. destruct (session_inv _ _ _ Hs) as (G & _ & _). destruct m; cbn [lex_mode] in E.
  2, 3, 4: exists []; split; [|split; [constructor|split; [auto|discriminate]]].
  2: { revert E. unfold lexString, lpeek. destruct (rest s) as [|c r] eqn:Hr; [now intros [= _ <-]|].
       destruct (Ascii.eqb c """"). { rewrite (consume1_spec _ _ _ Hr). now intros [= _ <-]. }
       destruct (Ascii.eqb c "\"). { unfold consume. rewrite Hr. destruct r as [|c2 r]; [discriminate|]. cbn. now intros [= _ <-]. }
       destruct (consumePrefix_spec (b "${") s) as [(q & _ & ->)|(_ & ->)]; cbn [bind]; [now intros [= _ <-]|].
       rewrite <- Hr. destruct (strpart_aux (rest s) (cur s)) as [p r']. now intros [= _ <-]. }
  2: { revert E. unfold lexIndString. destruct (eof s); [now intros [= _ <-]|].
       destruct (consumePrefix_spec (b "''") s) as [(q & _ & ->)|(_ & ->)]; cbn [bind].
       - set (s1 := Lst _ _ _).
         destruct (consumePrefix_spec (b "$") s1) as [(q1 & _ & ->)|(_ & ->)]; cbn [bind]; [now intros [= _ <-]|].
         destruct (consumePrefix_spec (b "'") s1) as [(q2 & _ & ->)|(_ & ->)]; cbn [bind]; [now intros [= _ <-]|].
         destruct (consumePrefix_spec (b "\") s1) as [(q3 & _ & ->)|(_ & ->)]; cbn [bind]; [|now intros [= _ <-]].
         destruct q3 as [|c3 q3]; [discriminate|]. rewrite (consume1_spec c3 q3) by reflexivity. cbn [bind]. now intros [= _ <-].
       - destruct (consumePrefix_spec (b "${") s) as [(q1 & _ & ->)|(_ & ->)]; cbn [bind]; [now intros [= _ <-]|].
         destruct (indpart_aux (rest s) (cur s)) as [p r']. now intros [= _ <-]. }
  2: { revert E. unfold lexPath. destruct (eof s); [now intros [= _ <-]|].
       destruct (consumePrefix_spec (b "${") s) as [(q & _ & ->)|(_ & ->)]; cbn [bind]; [now intros [= _ <-]|].
       destruct (peekPrefix (b "~/") s) eqn:Ep.
       - apply starts_with_spec in Ep as [q Hq]. change (consume 2 s) with (consume (List.length (b "~/")) s). rewrite (consume_spec (b "~/") q s Hq). cbn [bind].
         intros [= _ <-]. match goal with |- diags (consumeWhile _ ?x) = _ => destruct (consumeWhile_spec isPathOrSlash x) as (w & (_ & _ & D) & _) end. exact D.
       - destruct (lpeek s) as [c|]; [|now intros [= _ <-]]. destruct (isPathOrSlash c); [|now intros [= _ <-]].
         intros [= _ <-]. destruct (consumeWhile_spec isPathOrSlash s) as (w & (_ & _ & D) & _). exact D. }
  unfold lex in E. destruct (consumeTrivia s) as [s1| |] eqn:E1; cbn [bind] in E; try discriminate.
  assert (G1 : good src s1).
  { unfold consumeTrivia in E1. destruct (consumeTrivia_f_spec (S (List.length (rest s))) s) as (w & s1' & E1' & M & _); [lia|].
    rewrite E1 in E1'. injection E1' as <-. eapply good_mv; eauto. }
  apply trivia_told in E1; [|lia].
  destruct E1 as [(D1 & N1)|(w & body & R1 & O1 & U1 & D1)].
  - (* no open comment *)
    destruct (token_told _ _ _ E) as [(K & D2)|(K & d & w & f & ex & nz & ne & V & TR & C & R & Hw & Hf & X & Z & D2)].
    + exists []. rewrite D2, D1. split; [reflexivity|]. split; [constructor|]. split; [auto|]. intros _ dd. split; [intros []|].
      intros L. destruct L as [w0 body0 c1 c2 e L1 L2 L3 _ _ _|c ds more e K' _ _ _ _|u x sign K' _ _ _]; [|congruence|congruence].
      exfalso. apply (N1 w0 body0). split; auto.
    + exists (nz ++ ne). rewrite D2, D1. split; [apply app_assoc|].
      assert (Z' : forall dd, In dd nz <-> exists c ds more e, tview t = "0"%char :: c :: ds ++ b "." ++ more /\ digit c /\ Forall digit ds /\
         place src (off (lcur (trange t)) + 2 + List.length ds) e /\ dd = zero_diag c (lcur (trange t)) e).
      { intros dd. rewrite TR. cbn [lcur]. destruct Z as [(c & w' & -> & -> & ->)|(Hz & ->)].
        - inversion Hw as [|? ? _ Hw']; subst. inversion Hw' as [|? ? Hc Hw'']; subst. split.
          + intros [<-|[]]. exists c, w', (f ++ ex), (advs ("0"%char :: c :: w') (cur s1)).
            split; [exact V|]. split; [exact Hc|]. split; [exact Hw''|]. split; [|reflexivity].
            rewrite <- Nat.add_assoc. change (2 + List.length w') with (List.length ("0"%char :: c :: w')).
            apply (place_good src s1 _ ((b "." ++ f ++ ex) ++ rest s')); [exact G1|]. rewrite R, V. now rewrite <- !app_assoc.
          + intros (c' & ds & more & e & V' & Hc' & Hds & P & ->). left.
            rewrite V in V'. assert (W : "0"%char :: c :: w' = "0"%char :: c' :: ds).
            { apply (digits_dot _ (f ++ ex) _ more); [exact Hw|constructor; [unfold digit, one_of; simpl; tauto|now constructor]|exact V']. }
            injection W as <- <-. f_equal. symmetry. apply (place_fun src _ _ _ P).
            rewrite <- Nat.add_assoc. change (2 + List.length w') with (List.length ("0"%char :: c :: w')).
            apply (place_good src s1 _ ((b "." ++ f ++ ex) ++ rest s')); [exact G1|]. rewrite R, V. now rewrite <- !app_assoc.
        - split; [intros []|]. intros (c' & ds & more & e & V' & Hc' & Hds & P & ->).
          rewrite V in V'. assert (W : d :: w = "0"%char :: c' :: ds).
          { apply (digits_dot _ (f ++ ex) _ more); [exact Hw|constructor; [unfold digit, one_of; simpl; tauto|now constructor]|exact V']. }
          injection W as -> ->. destruct Hz as [Hz|Hz]; [congruence|discriminate]. }
      assert (X' : forall dd, In dd ne <-> exists u x sign, tview t = u ++ x :: sign /\ one_of (b "eE") x /\ In sign [[]; b "+"; b "-"] /\
         dd = exp_diag x (rcur (trange t))).
      { intros dd. rewrite TR. cbn [rcur]. destruct X as [(-> & ->)|(x & sign & ddg & Hx & Hsg & Hdd & -> & Hne)].
        - split; [intros []|]. intros (u & x & sign & V' & Hx & Hsg & _). rewrite V, app_nil_r in V'.
          destruct (exp_ends u x sign Hx Hsg) as (l & c & L & Lc). rewrite L in V'.
          destruct f as [|f0 f].
          + rewrite app_nil_r in V'. apply snoc_last in V' as [_ <-]. apply (tail_exp "."%char); [now right|exact Lc].
          + destruct (digits_end (f0 :: f) Hf ltac:(discriminate)) as (l' & c' & Ef & Tc). rewrite Ef, !app_assoc in V'.
            apply snoc_last in V' as [_ <-]. exact (tail_exp _ Tc Lc).
        - destruct Hne as [(-> & ->)|(Hn & ->)].
          + rewrite app_nil_r in V. split.
            * intros [<-|[]]. exists ((d :: w) ++ b "." ++ f), x, sign. rewrite V. split; [now rewrite <- !app_assoc|]. auto.
            * intros (u & x' & sign' & V' & Hx' & Hsg' & ->). left. f_equal. rewrite V in V'.
              assert (x = x'); [|now subst].
              apply (exp_unique ((d :: w) ++ b "." ++ f) x sign u x' sign'); auto. rewrite <- V'. now rewrite <- !app_assoc.
          + split; [intros []|]. intros (u & x' & sign' & V' & Hx' & Hsg' & _). rewrite V in V'.
            destruct (exp_ends u x' sign' Hx' Hsg') as (l & c & L & Lc). rewrite L in V'.
            destruct (digits_end ddg Hdd Hn) as (l' & c' & Ef & Tc). rewrite Ef in V'.
            change (x :: sign ++ l' ++ [c']) with ((x :: sign) ++ l' ++ [c']) in V'. rewrite !app_assoc in V'.
            apply snoc_last in V' as [_ <-]. exact (tail_exp _ Tc Lc). }
      split; [|split; [congruence|]].
      * destruct Z as [(c & w' & _ & _ & ->)|(_ & ->)]; destruct X as [(_ & ->)|(x & sign & ddg & _ & _ & _ & _ & [(_ & ->)|(_ & ->)])];
          simpl; repeat constructor; simpl; intuition discriminate.
      * intros _ dd. rewrite in_app_iff, Z', X'. split.
        -- intros [(c & ds & more & e & V' & Hc & Hds & P & ->)|(u & x & sign & V' & Hx & Hsg & ->)].
           ++ now apply (le_zero src _ _ t c ds more e).
           ++ now apply (le_exp src _ _ t u x sign).
        -- intros L. destruct L as [w0 body0 c1 c2 e L1 L2 L3 _ _ _|c ds more e _ V' Hc Hds P|u x sign _ V' Hx Hsg].
           ++ exfalso. apply (N1 w0 body0). split; auto.
           ++ left. exists c, ds, more, e. auto.
           ++ right. exists u, x, sign. auto.
  - (* an open comment *)
    assert (ET : lexToken s1 = Ok (finishToken tok_eof s1 s1, s1)).
    { unfold lexToken, lpeek. now rewrite R1. }
    rewrite ET in E. injection E as <- <-. exists [comment_diag w body (cur s)]. split; [exact D1|].
    split; [repeat constructor; intros []|]. split; [congruence|]. intros _ dd.
    assert (P1 : place src (off (cur s) + List.length w) (advs w (cur s))).
    { apply (place_good src s w (b "/*" ++ body)); [exact G|apply O1]. }
    assert (P2 : place src (off (cur s) + List.length w + 2) (advs (w ++ b "/*") (cur s))).
    { rewrite <- Nat.add_assoc. replace (List.length w + 2) with (List.length (w ++ b "/*")) by (rewrite app_length; reflexivity).
      apply (place_good src s _ body); [exact G|]. rewrite <- app_assoc. apply O1. }
    assert (P3 : place src (off (cur s) + List.length (rest s)) (advs (w ++ b "/*" ++ body) (cur s))).
    { destruct O1 as (O1 & _). rewrite O1. apply (place_good src s _ []); [exact G|]. now rewrite app_nil_r. }
    destruct O1 as (O1 & O2 & O3). split.
    + intros [<-|[]]. now apply (le_comment src _ _ _ w body).
    + intros L. destruct L as [w0 body0 c1 c2 e L1 L2 L3 Q1 Q2 Q3|c ds more e K' _ _ _ _|u x sign K' _ _ _]; [|discriminate|discriminate].
      destruct (U1 w0 body0) as [-> ->]; [now split|]. left. unfold comment_diag.
      rewrite (place_fun _ _ _ _ Q1 P1), (place_fun _ _ _ _ Q2 P2), (place_fun _ _ _ _ Q3 P3). reflexivity.
Qed.
