(** Proofs about the lexer model. *)
From Verif Require Import Base Diag LexModel LexSpec.
Local Open Scope list_scope.

Arguments mem_char : simpl never.

(** * Generic facts *)
Lemma bytes_eqb_spec x y : bytes_eqb x y = true <-> x = y.
Proof.
  revert y; induction x as [|c x IH]; intros [|d y]; simpl; try (split; intros; congruence).
  rewrite andb_true_iff, Ascii.eqb_eq, IH. split; [intros [-> ->]; reflexivity | intros; split; congruence].
Qed.

Lemma starts_with_spec p s : starts_with p s = true <-> exists r, s = p ++ r.
Proof.
  revert s; induction p as [|c p IH]; intros s; simpl.
  - split; eauto.
  - destruct s as [|d s].
    + split; [intros; congruence | intros [r Hr]; discriminate].
    + rewrite andb_true_iff, Ascii.eqb_eq, IH. split.
      * intros [-> [r ->]]. now exists r.
      * intros [r Hr]. injection Hr as -> ->. eauto.
Qed.

Lemma mem_char_spec c s : mem_char c s = true <-> In c s.
Proof.
  unfold mem_char. rewrite existsb_exists. split.
  - intros [x [Hx Heq]]. apply Ascii.eqb_eq in Heq. now subst.
  - intros H. exists c. now rewrite Ascii.eqb_refl.
Qed.

(** * Cursor arithmetic *)
Definition advs (w : bytes) (p : cursor) : cursor := fold_left (fun q c => adv c q) w p.

Lemma advs_app w1 w2 p : advs (w1 ++ w2) p = advs w2 (advs w1 p).
Proof. apply fold_left_app. Qed.

Lemma adv_off c p : off (adv c p) = S (off p).
Proof. unfold adv. now destruct (Ascii.eqb c "010"). Qed.

Lemma advs_off w p : off (advs w p) = off p + List.length w.
Proof.
  revert p; induction w as [|c w IH]; intros p; simpl; [lia|].
  unfold advs in *; simpl. rewrite IH, adv_off. lia.
Qed.

Lemma cursor_after_nil : cursor_after [] cur0.
Proof. repeat split. exists [], []. repeat split; auto. Qed.

Lemma cursor_after_snoc pre p c : cursor_after pre p -> cursor_after (pre ++ [c]) (adv c p).
Proof.
  intros (Ho & Hl & above & last & Hpre & Hin & Hc & Habove).
  unfold adv. destruct (Ascii.eqb c "010") eqn:Hlf.
  - apply Ascii.eqb_eq in Hlf; subst c. repeat split; simpl.
    + rewrite app_length, Ho. simpl. lia.
    + rewrite count_occ_app, Hl. simpl. lia.
    + exists (pre ++ [lf]), []. rewrite app_nil_r. repeat split; auto. right. eauto.
  - apply Ascii.eqb_neq in Hlf. repeat split; simpl.
    + rewrite app_length, Ho. simpl. lia.
    + rewrite count_occ_app, Hl. simpl. destruct (ascii_dec c lf) as [->|_]; [now elim Hlf|lia].
    + exists above, (last ++ [c]). rewrite Hpre, app_assoc. repeat split; auto.
      * rewrite in_app_iff. intros [H|[H|[]]]; auto.
      * rewrite app_length, Hc. simpl. lia.
Qed.

Lemma cursor_after_advs pre w p : cursor_after pre p -> cursor_after (pre ++ w) (advs w p).
Proof.
  revert pre p; induction w as [|c w IH]; intros pre p H; simpl; [now rewrite app_nil_r|].
  unfold advs; simpl. fold (advs w (adv c p)).
  replace (pre ++ c :: w) with ((pre ++ [c]) ++ w) by now rewrite <- app_assoc.
  now apply IH, cursor_after_snoc.
Qed.

Lemma cursor_after_fun pre p q : cursor_after pre p -> cursor_after pre q -> p = q.
Proof.
  intros (Ho & Hl & a & l & E & Hn & Hc & Ha) (Ho' & Hl' & a' & l' & E' & Hn' & Hc' & Ha').
  destruct p, q; simpl in *; subst.
  enough (List.length l = List.length l') by congruence.
  clear -E' Hn Ha Hn' Ha'.
  assert (Hle : forall a l a' l' : bytes, a ++ l = a' ++ l' -> ~ In lf l -> (a' = [] \/ exists x, a' = x ++ [lf]) ->
            List.length l <= List.length l').
  { clear. intros a l a' l' E Hn [->|[x ->]].
    - simpl in E. subst l'. rewrite app_length. lia.
    - apply Nat.nlt_ge. intros Hlt. apply Hn.
      assert (List.length a + List.length l = List.length x + 1 + List.length l').
      { apply (f_equal (@List.length _)) in E. rewrite !app_length in E. simpl in E. lia. }
      assert (Hx : skipn (List.length a) (a ++ l) = l) by (rewrite skipn_app, Nat.sub_diag, skipn_all; reflexivity).
      rewrite <- Hx, E, <- app_assoc, skipn_app. replace (List.length a - List.length x) with 0 by lia.
      rewrite in_app_iff. right. simpl. now left. }
  apply Nat.le_antisymm; [eapply Hle | eapply Hle]; eauto.
Qed.

(** * Moves of the lexer *)
Definition reach (s : lst) (c : cursor) : Prop := exists w r, rest s = w ++ r /\ c = advs w (cur s).

Definition mv0 (w : bytes) (s s' : lst) : Prop :=
  rest s = w ++ rest s' /\ cur s' = advs w (cur s) /\ diags s' = diags s.

(** what else is known of a diagnostic of the lexer *)
Definition lex_diag (d : diag) : Prop :=
  Forall (fun r => off (lcur r) <= off (rcur r)) (diag_ranges d) /\
  Forall (fun f => exists e, f_edits f = [e] /\ e_text e <> [] /\ lcur (e_range e) = rcur (e_range e) /\
      lcur (e_range e) = lcur (d_range d) /\ f_msg f = b "insert " ++ e_text e)
    (d_fixes d) /\
  instantiated d.

Definition mv (w : bytes) (s s' : lst) : Prop :=
  rest s = w ++ rest s' /\ cur s' = advs w (cur s) /\
  exists nd, diags s' = nd ++ diags s /\ Forall (fun d => Forall (reach s) (diag_cursors d) /\ lex_diag d) nd.

Lemma mv0_mv w s s' : mv0 w s s' -> mv w s s'.
Proof. intros (H1 & H2 & H3). split; [|split]; auto. exists []. simpl. auto. Qed.

Lemma mv0_refl s : mv0 [] s s.
Proof. repeat split. Qed.
Lemma mv_refl s : mv [] s s.
Proof. apply mv0_mv, mv0_refl. Qed.

Lemma mv0_trans w1 w2 s1 s2 s3 : mv0 w1 s1 s2 -> mv0 w2 s2 s3 -> mv0 (w1 ++ w2) s1 s3.
Proof.
  intros (A1 & A2 & A3) (B1 & B2 & B3). repeat split.
  - rewrite A1, B1. apply app_assoc.
  - now rewrite B2, A2, advs_app.
  - congruence.
Qed.

Lemma reach_mv w s s' c : rest s = w ++ rest s' -> cur s' = advs w (cur s) -> reach s' c -> reach s c.
Proof.
  intros A1 A2 (u & r & E & ->). exists (w ++ u), r. split.
  - rewrite A1, E. apply app_assoc.
  - now rewrite advs_app, A2.
Qed.

Lemma mv_trans w1 w2 s1 s2 s3 : mv w1 s1 s2 -> mv w2 s2 s3 -> mv (w1 ++ w2) s1 s3.
Proof.
  intros (A1 & A2 & n1 & A3 & A4) (B1 & B2 & n2 & B3 & B4). repeat split.
  - rewrite A1, B1. apply app_assoc.
  - now rewrite B2, A2, advs_app.
  - exists (n2 ++ n1). split; [rewrite B3, A3; apply app_assoc|].
    apply Forall_app; split; [|exact A4].
    eapply Forall_impl; [|exact B4]. intros d [Hd Hl]. split; [|exact Hl]. eapply Forall_impl; [|exact Hd].
    intros c Hc. eapply reach_mv; eauto.
Qed.

Lemma reach_self s : reach s (cur s).
Proof. exists [], (rest s). auto. Qed.

Lemma reach_after w s s' : rest s = w ++ rest s' -> cur s' = advs w (cur s) -> reach s (cur s').
Proof. intros A1 A2. exists w, (rest s'). auto. Qed.

Lemma mv_slice w s s' : mv w s s' -> slice_between s s' = w.
Proof.
  intros (A1 & A2 & _). unfold slice_between. rewrite A2, advs_off, A1.
  replace (off (cur s) + List.length w - off (cur s)) with (List.length w) by lia.
  rewrite firstn_app, Nat.sub_diag, firstn_all. simpl. now rewrite app_nil_r.
Qed.

Lemma mv_finish k w s s' : mv w s s' -> finishToken k s s' = Tok k (mkRange (cur s) (cur s')) w.
Proof. intros H. unfold finishToken. now rewrite (mv_slice _ _ _ H). Qed.

(** * Primitives *)
Lemma consume_spec w r s :
  rest s = w ++ r -> consume (List.length w) s = Ok (Lst (advs w (cur s)) r (diags s)).
Proof.
  revert s; induction w as [|c w IH]; intros s H; simpl in *.
  - destruct s; simpl in *. now subst.
  - rewrite H. rewrite IH; reflexivity.
Qed.

Lemma consume1_spec c r s : rest s = c :: r -> consume 1 s = Ok (Lst (adv c (cur s)) r (diags s)).
Proof. intros H. exact (consume_spec [c] r s H). Qed.

Arguments consume : simpl never.

Lemma mv0_Lst w r s : rest s = w ++ r -> mv0 w s (Lst (advs w (cur s)) r (diags s)).
Proof. repeat split; auto. Qed.

Lemma mv0_1 c r s : rest s = c :: r -> mv0 [c] s (Lst (adv c (cur s)) r (diags s)).
Proof. repeat split; auto. Qed.

Lemma consumePrefix_spec p s :
  (exists r, rest s = p ++ r /\ consumePrefix p s = Ok (true, Lst (advs p (cur s)) r (diags s)))
  \/ ((forall r, rest s <> p ++ r) /\ consumePrefix p s = Ok (false, s)).
Proof.
  unfold consumePrefix, peekPrefix.
  destruct (starts_with p (rest s)) eqn:E.
  - apply starts_with_spec in E as [r Hr]. left. exists r. split; auto.
    rewrite (consume_spec p r s Hr). reflexivity.
  - right. split; [|reflexivity]. intros r Hr.
    assert (starts_with p (rest s) = true) by (apply starts_with_spec; eauto). congruence.
Qed.

(** case analysis on a consumePrefix in the goal *)
Ltac prefix_case r Hr :=
  match goal with
  | |- context [consumePrefix ?p ?s] =>
      destruct (consumePrefix_spec p s) as [[r [Hr ->]]|[Hr ->]]; cbn [bind]
  end.

Fixpoint span (P : ascii -> bool) (r : bytes) : bytes * bytes :=
  match r with
  | [] => ([], [])
  | c :: r' => if P c then let '(w, q) := span P r' in (c :: w, q) else ([], c :: r')
  end.

Lemma cw_aux_span P r p : cw_aux P r p = (advs (fst (span P r)) p, snd (span P r)).
Proof.
  revert p; induction r as [|c r IH]; intros p; simpl; [reflexivity|].
  destruct (P c); [|reflexivity]. rewrite IH. destruct (span P r). reflexivity.
Qed.

Lemma span_spec P r :
  exists w q, span P r = (w, q) /\ r = w ++ q /\ Forall (fun c => P c = true) w /\
    match q with [] => True | c :: _ => P c = false end.
Proof.
  induction r as [|c r (w & q & E & Hr & Hw & Hq)]; simpl; [now exists [], []|].
  destruct (P c) eqn:Pc.
  - rewrite E. exists (c :: w), q. subst r. repeat split; auto.
  - exists [], (c :: r). repeat split; auto.
Qed.

Lemma consumeWhile_spec P s :
  exists w, mv0 w s (consumeWhile P s) /\ Forall (fun c => P c = true) w /\
    match rest (consumeWhile P s) with [] => True | c :: _ => P c = false end.
Proof.
  unfold consumeWhile. rewrite cw_aux_span.
  destruct (span_spec P (rest s)) as (w & q & -> & Hr & Hw & Hq).
  exists w. repeat split; auto.
Qed.

Lemma consumeWhile_cons P s c r :
  rest s = c :: r -> P c = true ->
  exists w, mv0 (c :: w) s (consumeWhile P s) /\ Forall (fun c => P c = true) (c :: w) /\
    match rest (consumeWhile P s) with [] => True | c :: _ => P c = false end.
Proof.
  intros Hr Pc. destruct (consumeWhile_spec P s) as (w & Hmv & Hw & Hq).
  destruct w as [|d w].
  - destruct Hmv as (A1 & _). simpl in A1. rewrite Hr in A1. rewrite <- A1 in Hq. congruence.
  - assert (d = c) by (destruct Hmv as (A1 & _); rewrite Hr in A1; now injection A1).
    subst d. exists w. auto.
Qed.

Lemma consumeMany_spec P s :
  (exists c w s', consumeMany P s = (true, s') /\ mv0 (c :: w) s s' /\ Forall (fun c => P c = true) (c :: w) /\
     match rest s' with [] => True | d :: _ => P d = false end)
  \/ (consumeMany P s = (false, s) /\ match rest s with [] => True | d :: _ => P d = false end).
Proof.
  unfold consumeMany. destruct (rest s) as [|c r] eqn:Hr; [right; auto|].
  destruct (P c) eqn:Pc; [|right; auto].
  destruct (consumeWhile_cons P s c r Hr Pc) as (w & Hmv & Hw & Hq).
  left. exists c, w, (consumeWhile P s). auto.
Qed.

Lemma consumeOne_spec c s :
  (exists r, rest s = c :: r /\ consumeOne c s = Ok (true, Lst (adv c (cur s)) r (diags s)))
  \/ (consumeOne c s = Ok (false, s) /\ (forall r, rest s <> c :: r)).
Proof.
  unfold consumeOne, lpeek_is. destruct (rest s) as [|d r] eqn:Hr; [right; split; congruence|].
  destruct (Ascii.eqb d c) eqn:E.
  - apply Ascii.eqb_eq in E; subst d. left. exists r. split; auto.
    now rewrite (consume1_spec c r s Hr).
  - right. split; [reflexivity|]. intros q Hq. apply Ascii.eqb_neq in E. congruence.
Qed.

Lemma consumeOneOf_spec cs s :
  (exists c r, rest s = c :: r /\ In c cs /\
     consumeOneOf cs s = Ok (Some c, Lst (adv c (cur s)) r (diags s)))
  \/ consumeOneOf cs s = Ok (None, s).
Proof.
  unfold consumeOneOf, lpeek. destruct (rest s) as [|d r] eqn:Hr; [now right|].
  destruct (mem_char d cs) eqn:E; [|now right].
  apply mem_char_spec in E. left. exists d, r. repeat split; auto.
  now rewrite (consume1_spec d r s Hr).
Qed.

(** * Character classes *)
Lemma all_ascii (P : ascii -> bool) :
  forallb (fun n => P (ascii_of_N (N.of_nat n))) (seq 0 256) = true -> forall c, P c = true.
Proof.
  intros H c.
  assert (Hin : In (N.to_nat (N_of_ascii c)) (seq 0 256)).
  { apply in_seq. pose proof (N_ascii_bounded c) as B. lia. }
  rewrite forallb_forall in H. specialize (H _ Hin). cbv beta in H.
  rewrite N2Nat.id, ascii_N_embedding in H. exact H.
Qed.

Definition impl_on (p q : ascii -> bool) : bool :=
  forallb (fun n => let c := ascii_of_N (N.of_nat n) in implb (p c) (q c)) (seq 0 256).
Lemma impl_on_spec p q : impl_on p q = true -> forall c, p c = true -> q c = true.
Proof.
  intros H c Hp.
  assert (E : implb (p c) (q c) = true).
  { apply (all_ascii (fun c => implb (p c) (q c))). exact H. }
  rewrite Hp in E. exact E.
Qed.

Lemma class_of p l : impl_on p (fun c => mem_char c l) = true -> forall c, p c = true -> In c l.
Proof. intros H c Hc. apply mem_char_spec. exact (impl_on_spec p (fun c => mem_char c l) H c Hc). Qed.

Lemma isPathChar_path c : isPathChar c = true -> path_char c.
Proof. apply class_of. vm_compute. reflexivity. Qed.
Lemma isIdChar_id c : isIdentifierChar c = true -> id_char c.
Proof. apply class_of. vm_compute. reflexivity. Qed.
Lemma isScheme_scheme c : isUriSchemeChar c = true -> scheme_char c.
Proof. apply class_of. vm_compute. reflexivity. Qed.
Lemma isUri_uri c : isUriPathChar c = true -> uri_char c.
Proof. apply class_of. vm_compute. reflexivity. Qed.
Lemma isDigit_digit c : isdigit c = true -> digit c.
Proof. apply class_of. vm_compute. reflexivity. Qed.
Lemma isAlpha_alpha c : isalpha c = true -> one_of (lower ++ upper) c.
Proof. apply class_of. vm_compute. reflexivity. Qed.
Lemma isIdStart c : (isalpha c || Ascii.eqb c "_")%bool = true -> id_start c.
Proof. apply (class_of (fun c => isalpha c || Ascii.eqb c "_")%bool). vm_compute. reflexivity. Qed.
Lemma isspace_blank c : isspace c = true -> blank c.
Proof. apply class_of. vm_compute. reflexivity. Qed.
Lemma isPathOrSlash_spec c : isPathOrSlash c = true -> path_char c \/ c = "/"%char.
Proof.
  unfold isPathOrSlash. rewrite orb_true_iff, Ascii.eqb_eq. intros [H|H]; auto using isPathChar_path.
Qed.
Lemma digits_digit c : mem_char c (b "0123456789") = true -> digit c.
Proof. apply mem_char_spec. Qed.

Lemma Forall_class (P : ascii -> bool) (Q : ascii -> Prop) w :
  (forall c, P c = true -> Q c) -> Forall (fun c => P c = true) w -> Forall Q w.
Proof. intros H. apply Forall_impl. auto. Qed.

(** * Trivia *)
Lemma consumeWhitespaces_spec s c r :
  rest s = c :: r ->
  (exists w s', consumeWhitespaces s = Ok (true, s') /\ w <> [] /\ mv0 w s s' /\
      Forall blank w)
  \/ consumeWhitespaces s = Ok (false, s).
Proof.
  intros Hr. unfold consumeWhitespaces, lpeek. rewrite Hr.
  destruct (isspace c) eqn:E; [|now right]. left.
  rewrite (consume1_spec c r s Hr). cbn [bind].
  destruct (consumeWhile_spec isspace (Lst (adv c (cur s)) r (diags s))) as (w & Hmv & Hw & _).
  exists (c :: w), (consumeWhile isspace (Lst (adv c (cur s)) r (diags s))). split; [reflexivity|]. split; [congruence|]. split.
  - apply (mv0_trans [c] w _ _ _ (mv0_1 _ _ _ Hr) Hmv).
  - constructor; [now apply isspace_blank|]. apply (Forall_class isspace); auto using isspace_blank.
Qed.

Lemma occurs_star_slash_cons c s :
  occurs (b "*/") (c :: s) <-> ((c = "*"%char /\ exists y, s = "/"%char :: y) \/ occurs (b "*/") s).
Proof.
  split.
  - intros ([|d x] & y & E); simpl in E.
    + injection E as -> ->. left. eauto.
    + injection E as -> ->. right. now exists x, y.
  - intros [[-> [y ->]]|(x & y & ->)].
    + now exists [], y.
    + now exists (c :: x), y.
Qed.

Lemma not_occurs_short : ~ occurs (b "*/") [].
Proof. intros ([|? ?] & y & E); discriminate. Qed.

Lemma not_occurs_one c : ~ occurs (b "*/") [c].
Proof.
  rewrite occurs_star_slash_cons. intros [[_ [y E]]|H]; [discriminate|now apply not_occurs_short in H].
Qed.

Lemma bcomment_spec r p :
  (exists body q, r = body ++ b "*/" ++ q /\ ~ occurs (b "*/") (body ++ b "*") /\
     bcomment_aux r p = (true, (advs (body ++ b "*/") p, q)))
  \/ (~ occurs (b "*/") r /\ bcomment_aux r p = (false, (advs r p, []))).
Proof.
  remember (List.length r) as n eqn:Hn. revert r p Hn.
  induction n as [n IH] using lt_wf_ind. intros r p Hn.
  destruct r as [|c [|c2 r]]; simpl.
  - right. split; [apply not_occurs_short|reflexivity].
  - right. split; [apply not_occurs_one|reflexivity].
  - destruct (Ascii.eqb c "*" && Ascii.eqb c2 "/")%bool eqn:E.
    + apply andb_true_iff in E as [E1 E2]. apply Ascii.eqb_eq in E1, E2. subst.
      left. exists [], r. repeat split. apply not_occurs_one.
    + assert (Hne : ~ (c = "*"%char /\ c2 = "/"%char)).
      { intros [-> ->]. discriminate. }
      destruct (IH (S (List.length r)) ltac:(simpl in Hn; lia) (c2 :: r) (adv c p) eq_refl)
        as [(body & q & H1 & H2 & H3)|[H1 H2]].
      * left. exists (c :: body), q. rewrite H1. repeat split.
        -- simpl. intros Hoc. apply occurs_star_slash_cons in Hoc as [[-> [y Hy]]|Hoc]; [|now apply H2].
           apply Hne. split; auto. destruct body as [|d body]; [discriminate|].
           simpl in H1, Hy. congruence.
        -- exact H3.
      * right. split.
        -- intros Hoc. apply occurs_star_slash_cons in Hoc as [[-> [y Hy]]|Hoc]; [|now apply H1].
           apply Hne. split; congruence.
        -- exact H2.
Qed.

Lemma lcomment_spec r p :
  (exists body q, r = body ++ [lf] ++ q /\ ~ In lf body /\ lcomment_aux r p = (advs (body ++ [lf]) p, q))
  \/ (~ In lf r /\ lcomment_aux r p = (advs r p, [])).
Proof.
  remember (List.length r) as n eqn:Hn. revert r p Hn.
  induction n as [n IH] using lt_wf_ind. intros r p Hn.
  destruct r as [|c r]; simpl; [right; auto|].
  destruct (Ascii.eqb c "010") eqn:E.
  - apply Ascii.eqb_eq in E. subst. left. exists [], r. auto.
  - apply Ascii.eqb_neq in E.
    assert (Hrec :
      (exists body q, c :: r = body ++ [lf] ++ q /\ ~ In lf body /\
          lcomment_aux r (adv c p) = (advs (body ++ [lf]) p, q))
      \/ (~ In lf (c :: r) /\ lcomment_aux r (adv c p) = (advs (c :: r) p, []))).
    { destruct (IH (List.length r) ltac:(simpl in Hn; lia) r (adv c p) eq_refl)
        as [(body & q & H1 & H2 & H3)|[H1 H2]].
      - left. exists (c :: body), q. split; [now rewrite H1|]. split; [|exact H3]. intros [H|H]; [now apply E|auto].
      - right. split; auto. intros [H|H]; [now apply E|auto]. }
    destruct r as [|c2 r]; [exact Hrec|].
    destruct (Ascii.eqb c "013" && Ascii.eqb c2 "010")%bool eqn:E2; [|exact Hrec].
    apply andb_true_iff in E2 as [E1 E2]. apply Ascii.eqb_eq in E1, E2. subst.
    left. exists ["013"%char], r. repeat split. intros [H|[]]. discriminate.
Qed.

Lemma cur_eqb_refl c : cur_eqb c c = true.
Proof. unfold cur_eqb. now rewrite !Nat.eqb_refl. Qed.

Lemma mkInsertion_ok c t : t <> [] -> mkInsertion c t = Ok (TEdit (point c) t).
Proof.
  intros H. unfold mkInsertion, mkEdit, edit_ok. destruct t; [congruence|]. simpl.
  now rewrite orb_true_r.
Qed.

(** a comment followed by trivia is trivia *)
Definition comment_like (w q : bytes) : Prop :=
  forall w2 after, q = w2 ++ after -> trivia w2 after -> trivia (w ++ w2) after.

Lemma consumeComments_spec s :
  (exists w s', consumeComments s = Ok (true, s') /\ w <> [] /\ mv w s s' /\ comment_like w (rest s'))
  \/ consumeComments s = Ok (false, s).
Proof.
  unfold consumeComments, eof. destruct (rest s) as [|c0 r0] eqn:Hr0; [now right|].
  clear c0 r0 Hr0.
  prefix_case r Hr.
  - left. cbn [rest cur diags].
    destruct (bcomment_spec r (advs (b "/*") (cur s))) as [(body & q & H1 & H2 & H3)|[H1 H2]].
    + rewrite H3. eexists (b "/*" ++ body ++ b "*/"), _. split; [reflexivity|].
      split; [discriminate|]. split.
      * apply mv0_mv. repeat split; simpl. rewrite Hr, H1. simpl. now rewrite <- app_assoc.
      * intros w2 after _ Ht. simpl. rewrite <- app_assoc. now apply (trivia_block body w2 after).
    + rewrite H2. rewrite mkInsertion_ok; [|discriminate]. cbn [bind].
      eexists (b "/*" ++ r), _. split; [reflexivity|]. split; [discriminate|]. split.
      * split; [|split]; simpl.
        -- now rewrite app_nil_r.
        -- reflexivity.
        -- eexists [_]. split; [reflexivity|]. constructor; [|constructor].
           assert (R1 : reach s (advs r (advs (b "/*") (cur s)))).
           { exists (b "/*" ++ r), []. rewrite app_nil_r. split; auto. }
           assert (R2 : reach s (advs (b "/*") (cur s))) by (now exists (b "/*"), r).
           split; [repeat (apply Forall_cons || apply Forall_nil); first [exact R1|exact R2|exact (reach_self s)]|].
           split; [|split; [|now repeat (split || constructor)]].
           ++ repeat (apply Forall_cons || apply Forall_nil); simpl; rewrite ?adv_off; lia.
           ++ constructor; [|constructor]. eexists. split; [reflexivity|]; split; [discriminate|]; split; [reflexivity|]; split; reflexivity.
      * simpl. intros w2 after E _. destruct w2; [|discriminate]. destruct after; [|discriminate].
        rewrite app_nil_r. now apply trivia_block_open.
  - prefix_case r Hr2; [|now right].
    left. cbn [rest cur diags].
    destruct (lcomment_spec r (advs (b "#") (cur s))) as [(body & q & H1 & H2 & H3)|[H1 H2]].
    + rewrite H3. eexists (b "#" ++ body ++ [lf]), _. split; [reflexivity|].
      split; [discriminate|]. split.
      * apply mv0_mv. repeat split; simpl. rewrite Hr2, H1. simpl. now rewrite <- app_assoc.
      * intros w2 after _ Ht. simpl. rewrite <- app_assoc. now apply (trivia_line body w2 after).
    + rewrite H2. eexists (b "#" ++ r), _. split; [reflexivity|]. split; [discriminate|]. split.
      * apply mv0_mv. repeat split; simpl. now rewrite app_nil_r.
      * simpl. intros w2 after E _. destruct w2; [|discriminate]. destruct after; [|discriminate].
        rewrite app_nil_r. now apply trivia_line_end.
Qed.

Lemma trivia_blanks w w2 after : Forall blank w -> trivia w2 after -> trivia (w ++ w2) after.
Proof. induction 1; intros H2; simpl; auto. constructor; auto. Qed.

Lemma mv_length w s s' : mv w s s' -> List.length (rest s) = List.length w + List.length (rest s').
Proof. intros (A1 & _). now rewrite A1, app_length. Qed.

Lemma consumeTrivia_f_spec fuel s :
  List.length (rest s) < fuel ->
  exists w s', consumeTrivia_f fuel s = Ok s' /\ mv w s s' /\ trivia w (rest s').
Proof.
  revert s; induction fuel as [|fuel IH]; intros s Hf; [lia|]. simpl.
  unfold eof at 1. destruct (rest s) as [|c r] eqn:Hr.
  - exists [], s. rewrite Hr. auto using mv_refl, trivia_nil.
  - destruct (consumeWhitespaces_spec s c r Hr) as [(w & s1 & -> & Hne & Hmv & Hb)| ->]; cbn [bind].
    + apply mv0_mv in Hmv. pose proof (mv_length _ _ _ Hmv) as HL. rewrite Hr in HL.
      destruct w as [|d w]; [congruence|]. simpl in HL, Hf.
      destruct (IH s1) as (w2 & s2 & -> & Hmv2 & Ht); [lia|].
      exists ((d :: w) ++ w2), s2. split; [reflexivity|].
      split; [now apply (mv_trans _ _ _ _ _ Hmv Hmv2)|now apply trivia_blanks].
    + destruct (consumeComments_spec s) as [(w & s1 & -> & Hne & Hmv & Hc)| ->]; cbn [bind].
      * pose proof (mv_length _ _ _ Hmv) as HL. rewrite Hr in HL.
        destruct w as [|d w]; [congruence|]. simpl in HL, Hf.
        destruct (IH s1) as (w2 & s2 & -> & Hmv2 & Ht); [lia|].
        exists ((d :: w) ++ w2), s2. split; [reflexivity|]. split; [now apply (mv_trans _ _ _ _ _ Hmv Hmv2)|].
        apply Hc; [|exact Ht]. apply Hmv2.
      * exists [], s. auto using mv_refl, trivia_nil.
Qed.

Lemma consumeTrivia_spec s :
  exists w s', consumeTrivia s = Ok s' /\ mv w s s' /\ trivia w (rest s').
Proof. apply consumeTrivia_f_spec. lia. Qed.

(** * Tokens of the expression mode *)
Lemma lexFloatExp_spec s :
  exists e s', lexFloatExp s = Ok s' /\ mv e s s' /\
    (e = [] \/ exists x sign d, e = x :: sign ++ d /\ one_of (b "eE") x /\
                 In sign [[]; b "+"; b "-"] /\ Forall digit d).
Proof.
  unfold lexFloatExp.
  destruct (consumeOneOf_spec (b "Ee") s) as [(x & r & Hr & Hx & ->)| ->]; cbn [bind].
  2: { exists [], s. auto using mv_refl. }
  set (s1 := Lst _ _ _).
  assert (M1 : mv0 [x] s s1) by (now repeat split).
  assert (exists sign s2, consumeOneOf (b "+-") s1 = Ok (match sign with [] => None | c :: _ => Some c end, s2)
            /\ mv0 sign s1 s2 /\ In sign [[]; b "+"; b "-"]) as (sign & s2 & -> & M2 & Hsign).
  { destruct (consumeOneOf_spec (b "+-") s1) as [(y & q & Hq & Hy & ->)| ->].
    - exists [y]. eexists. split; [reflexivity|]. split; [now repeat split|].
      destruct Hy as [<-|[<-|[]]]; simpl; auto.
    - exists [], s1. simpl. auto using mv0_refl. }
  cbn [bind].
  assert (Hx' : one_of (b "eE") x) by (destruct Hx as [<-|[<-|[]]]; simpl; auto).
  unfold consumeManyDigits.
  destruct (consumeMany_spec (fun c => mem_char c (b "0123456789")) s2) as [(c & w & s3 & -> & M3 & Hw & _)|[-> _]].
  - exists (x :: sign ++ (c :: w)), s3. split; [reflexivity|]. split.
    + apply mv0_mv. apply (mv0_trans [x] _ _ _ _ M1). now apply (mv0_trans _ _ _ _ _ M2).
    + right. exists x, sign, (c :: w). repeat split; auto.
      apply (Forall_class _ _ _ digits_digit Hw).
  - eexists (x :: sign ++ []), _. split; [reflexivity|]. split.
    + pose proof (mv0_trans _ _ _ _ _ M1 M2) as (B1 & B2 & B3). split; [|split].
      * simpl. rewrite app_nil_r. exact B1.
      * simpl. rewrite app_nil_r. exact B2.
      * eexists [_]. split; [simpl; rewrite B3; reflexivity|].
        constructor; [|constructor]. 
        assert (R : reach s (cur s2)) by (eapply reach_after; eauto).
        split; [repeat (apply Forall_cons || apply Forall_nil); exact R|].
        split; [|split; [constructor|split; [reflexivity|constructor]]].
        repeat (apply Forall_cons || apply Forall_nil); simpl; lia.
    + right. exists x, sign, []. auto.
Qed.

Lemma lexNumbers_spec s c r :
  rest s = c :: r -> isdigit c = true ->
  exists k v s', lexNumbers s = Ok (k, s') /\ mv v s s' /\ v <> [] /\ k <> tok_eof /\ spelled PS_Expr k v.
Proof.
  intros Hr Hc. unfold lexNumbers.
  unfold consumeManyDigits at 1.
  destruct (consumeMany_spec (fun c => mem_char c (b "0123456789")) s) as [(d & w & s1 & -> & M1 & Hw & _)|[_ Hbad]].
  2: { rewrite Hr in Hbad. apply (impl_on_spec isdigit) with (q := fun c => mem_char c (b "0123456789")) in Hc;
       [congruence|vm_compute; reflexivity]. }
  cbn [negb]. apply (Forall_class _ digit) in Hw; [|exact digits_digit].
  inversion Hw as [|? ? Hd Hw']; subst.
  unfold lpeek_is. destruct (rest s1) as [|e q] eqn:Hq.
  { exists tok_int, (d :: w), s1. split; [reflexivity|]. split; [now apply mv0_mv|].
    split; [discriminate|]. split; [discriminate|]. now apply sp_int. }
  destruct (Ascii.eqb e ".") eqn:E.
  2: { exists tok_int, (d :: w), s1. split; [reflexivity|]. split; [now apply mv0_mv|].
       split; [discriminate|]. split; [discriminate|]. now apply sp_int. }
  apply Ascii.eqb_eq in E. subst e.
  rewrite (consume1_spec _ _ _ Hq). cbn [bind]. set (s2 := Lst _ _ _).
  assert (M2 : mv0 [("."%char)] s1 s2) by (now repeat split).
  assert (exists f bo s3, consumeManyDigits s2 = (bo, s3) /\ mv0 f s2 s3 /\ Forall digit f)
    as (f & bo & s3 & -> & M3 & Hf).
  { unfold consumeManyDigits.
    destruct (consumeMany_spec (fun c => mem_char c (b "0123456789")) s2) as [(c3 & w3 & s3 & -> & M3 & Hw3 & _)|[-> _]].
    - exists (c3 :: w3), true, s3. split; [reflexivity|]. split; auto. apply (Forall_class _ _ _ digits_digit Hw3).
    - exists [], false, s2. auto using mv0_refl. }
  destruct (lexFloatExp_spec s3) as (ex & s4 & -> & M4 & Hex). cbn [bind].
  assert (M : mv ((d :: w) ++ b "." ++ f ++ ex) s s4).
  { apply (mv_trans _ _ _ s1); [now apply mv0_mv|]. apply (mv_trans _ _ _ s2); [now apply mv0_mv|].
    apply (mv_trans _ _ _ s3); [now apply mv0_mv|]. exact M4. }
  assert (Hsp : spelled PS_Expr tok_float ((d :: w) ++ b "." ++ f ++ ex)) by (now apply sp_float).
  match goal with |- context [if ?x then _ else _] => destruct x end.
  - exists tok_float, ((d :: w) ++ b "." ++ f ++ ex). eexists. split; [reflexivity|].
    split; [|split; [discriminate|split; [discriminate|exact Hsp]]].
    split; [apply M|]. split; [apply M|].
    destruct M as (_ & _ & nd & Hnd & Fnd). eexists (_ :: nd). split.
      * unfold push_diag. simpl. rewrite Hnd. reflexivity.
      * constructor; [|exact Fnd].
        assert (R : reach s (cur s1)) by (destruct M1 as (B1 & B2 & _); eapply reach_after; eauto).
        split; [repeat (apply Forall_cons || apply Forall_nil); first [exact R|exact (reach_self s)]|].
        split; [|split; [constructor|split; [reflexivity|constructor]]].
        repeat (apply Forall_cons || apply Forall_nil); simpl.
        destruct M1 as (_ & -> & _). rewrite advs_off. lia.
  - exists tok_float, ((d :: w) ++ b "." ++ f ++ ex), s4.
    split; [reflexivity|]. split; [exact M|]. split; [discriminate|]. split; [discriminate|exact Hsp].
Qed.

Lemma consumePathStart_spec s :
  (exists v s', consumePathStart s = Ok (true, s') /\ mv0 v s s' /\
     v <> [] /\ spelled PS_Expr tok_path_fragment v)
  \/ consumePathStart s = Ok (false, s).
Proof.
  unfold consumePathStart.
  destruct (consumeOne_spec "~" s) as [(r & Hr & ->)|[-> _]]; cbn [bind].
  - set (s1 := Lst _ _ _).
    destruct (consumeOne_spec "/" s1) as [(q & Hq & ->)|[-> _]]; cbn [bind andb]; [|now right].
    match goal with |- context [if ?x then _ else _] => destruct x end; [|now right].
    left. eexists (b "~/"), _. split; [reflexivity|]. split; [|split; [discriminate|apply sp_home]].
    repeat split. simpl in Hq. simpl. now rewrite Hr, Hq.
  - assert (exists w bo s2, consumeManyPathChar s = (bo, s2) /\ mv0 w s s2 /\ Forall path_char w)
      as (w & bo & s2 & -> & M2 & Hw).
    { unfold consumeManyPathChar.
      destruct (consumeMany_spec isPathChar s) as [(c3 & w3 & s3 & -> & M3 & Hw3 & _)|[-> _]].
      - exists (c3 :: w3), true, s3. split; [reflexivity|]. split; auto. apply (Forall_class _ _ _ isPathChar_path Hw3).
      - exists [], false, s. auto using mv0_refl. }
    destruct (consumeOne_spec "/" s2) as [(q & Hq & ->)|[-> _]]; cbn [bind andb]; [|now right].
    match goal with |- context [if ?x then _ else _] => destruct x end; [|now right].
    left. eexists (w ++ b "/"), _. split; [reflexivity|]. split; [|split].
    + apply (mv0_trans _ _ _ _ _ M2). now repeat split.
    + now destruct w.
    + now apply sp_path.
Qed.

Lemma consumeURI_spec s c r :
  rest s = c :: r -> isalpha c = true ->
  (exists v s', consumeURI s = Ok (true, s') /\ mv0 v s s' /\ v <> [] /\ spelled PS_Expr tok_uri v)
  \/ consumeURI s = Ok (false, s).
Proof.
  intros Hr Hc. unfold consumeURI.
  assert (Hsc : isUriSchemeChar c = true)
    by (apply (impl_on_spec isalpha isUriSchemeChar); [vm_compute; reflexivity|exact Hc]).
  destruct (consumeWhile_cons isUriSchemeChar s c r Hr Hsc) as (w & M1 & Hw & Hstop).
  set (s1 := consumeWhile isUriSchemeChar s) in *.
  inversion Hw as [|? ? _ Hw']; subst.
  unfold lpeek_is. destruct (rest s1) as [|e q] eqn:Hq; [now right|].
  destruct (Ascii.eqb e ":") eqn:E; [|now right]. apply Ascii.eqb_eq in E. subst e.
  rewrite (consume1_spec _ _ _ Hq). cbn [bind]. set (s2 := Lst _ _ _).
  unfold lpeek. destruct (rest s2) as [|e q2] eqn:Hq2; [now right|].
  destruct (isUriPathChar e) eqn:He; [|now right]. left.
  destruct (consumeWhile_cons isUriPathChar s2 e q2 Hq2 He) as (u & M3 & Hu & Hstop3).
  inversion Hu as [|? ? He' Hu']; subst.
  exists ((c :: w) ++ b ":" ++ (e :: u)). eexists. split; [reflexivity|]. split; [|split].
  - apply (mv0_trans _ _ _ _ _ M1). apply (mv0_trans _ _ _ s2); [|exact M3]. now repeat split.
  - discriminate.
  - apply sp_uri; auto using isAlpha_alpha, isUri_uri.
    + apply (Forall_class _ _ _ isScheme_scheme Hw').
    + apply (Forall_class _ _ _ isUri_uri Hu').
Qed.

Lemma spath_loop_spec fuel s :
  List.length (rest s) < fuel ->
  exists segs tail s', spath_loop fuel s = Ok s' /\
    mv0 (flat_map (fun s => b "/" ++ s) segs ++ tail) s s' /\
    Forall (fun s => s <> [] /\ Forall path_char s) segs /\
    (tail = [] \/ (tail = b "/" /\ match rest s' with [] => True | c :: _ => isPathChar c = false end)).
Proof.
  revert s; induction fuel as [|fuel IH]; intros s Hf; [lia|]. simpl.
  unfold lpeek_is. destruct (rest s) as [|c r] eqn:Hr.
  { exists [], [], s. simpl. auto using mv0_refl. }
  destruct (Ascii.eqb c "/") eqn:E.
  2: { exists [], [], s. simpl. auto using mv0_refl. }
  apply Ascii.eqb_eq in E. subst c.
  rewrite (consume1_spec _ _ _ Hr). cbn [bind]. set (s1 := Lst _ _ _).
  assert (M1 : mv0 (b "/") s s1) by (now repeat split). clearbody s1.
  unfold peek_path_char, lpeek. destruct (rest s1) as [|e q] eqn:Hq.
  { exists [], (b "/"), s1. split; [reflexivity|]. split; [exact M1|]. split; [constructor|].
    right. rewrite Hq. auto. }
  destruct (isPathChar e) eqn:He.
  2: { exists [], (b "/"), s1. split; [reflexivity|]. split; [exact M1|]. split; [constructor|].
    right. rewrite Hq. auto. }
  destruct (consumeWhile_cons isPathChar s1 e q Hq He) as (w & M2 & Hw & Hstop).
  destruct (IH (consumeWhile isPathChar s1)) as (segs & tail & s' & -> & M3 & Hsegs & Htail).
  { destruct M1 as (A0 & _). destruct M2 as (A1 & _). rewrite Hr, A1 in A0.
    apply (f_equal (@List.length _)) in A0. rewrite !app_length in A0. simpl in A0, Hf. lia. }
  exists ((e :: w) :: segs), tail, s'. split; [reflexivity|]. split; [|split; auto].
  - pose proof (mv0_trans _ _ _ _ _ M1 (mv0_trans _ _ _ _ _ M2 M3)) as M.
    simpl in M |- *. rewrite <- app_assoc. exact M.
  - constructor; auto. split; [congruence|]. apply (Forall_class _ _ _ isPathChar_path Hw).
Qed.

(** the angle-bracket path that the code accepts although its own grammar (Lexer.cpp:288) forbids a slash
    before the closing bracket *)
Definition odd_spath (v : bytes) : Prop :=
  exists c w segs, path_char c /\ Forall path_char w /\ Forall (fun s => s <> [] /\ Forall path_char s) segs /\
    v = b "<" ++ (c :: w) ++ flat_map (fun s => b "/" ++ s) segs ++ b "/>".

Lemma consumeSPath_spec s r :
  rest s = "<"%char :: r ->
  (exists v s', consumeSPath s = Ok (true, s') /\ mv0 v s s' /\ v <> [] /\
      (spelled PS_Expr tok_spath v \/ odd_spath v))
  \/ consumeSPath s = Ok (false, s).
Proof.
  intros Hr. unfold consumeSPath, lpeek_is. rewrite Hr. simpl Ascii.eqb. cbn iota.
  rewrite (consume1_spec _ _ _ Hr). cbn [bind]. set (s1 := Lst _ _ _).
  assert (M1 : mv0 (b "<") s s1) by (now repeat split). clearbody s1.
  unfold peek_path_char, lpeek. destruct (rest s1) as [|e q] eqn:Hq; [now right|].
  destruct (isPathChar e) eqn:He; [|now right].
  destruct (consumeWhile_cons isPathChar s1 e q Hq He) as (w & M2 & Hw & Hstop).
  set (s2 := consumeWhile isPathChar s1) in *.
  inversion Hw as [|? ? Hc Hw']; subst.
  apply isPathChar_path in Hc. apply (Forall_class _ _ _ isPathChar_path) in Hw'.
  destruct (spath_loop_spec (S (List.length (rest s2))) s2 ltac:(lia)) as (segs & tail & s3 & E3 & M3 & Hsegs & Htail).
  rewrite E3. cbn [bind].
  destruct (rest s3) as [|f q3] eqn:Hq3; [now right|].
  destruct (Ascii.eqb f ">") eqn:Ef; [|now right]. apply Ascii.eqb_eq in Ef. subst f.
  rewrite (consume1_spec _ _ _ Hq3). cbn [bind]. set (s4 := Lst _ _ _). left.
  exists (b "<" ++ (e :: w) ++ (flat_map (fun s => b "/" ++ s) segs ++ tail) ++ b ">"), s4.
  split; [reflexivity|]. split; [|split; [discriminate|]].
  - apply (mv0_trans _ _ _ _ _ M1). apply (mv0_trans _ _ _ _ _ M2).
    apply (mv0_trans _ _ _ _ _ M3). now repeat split.
  - destruct Htail as [->|[-> _]].
    + left. rewrite app_nil_r. now apply sp_spath.
    + right. exists e, w, segs. repeat split; auto. now rewrite <- app_assoc.
Qed.

Lemma lexIdentifier_spec s c r :
  rest s = c :: r -> (isalpha c || Ascii.eqb c "_")%bool = true ->
  exists w s', lexIdentifier s = Ok s' /\ mv0 (c :: w) s s' /\ id_start c /\ Forall id_char w.
Proof.
  intros Hr Hc. unfold lexIdentifier. rewrite (consume1_spec _ _ _ Hr). cbn [bind].
  set (s1 := Lst _ _ _).
  destruct (consumeWhile_spec isIdentifierChar s1) as (w & M & Hw & _).
  exists w, (consumeWhile isIdentifierChar s1). split; [reflexivity|]. split.
  - apply (mv0_trans [c] _ _ _ _ (mv0_1 _ _ _ Hr) M).
  - split; [now apply isIdStart|]. apply (Forall_class _ _ _ isIdChar_id Hw).
Qed.

Lemma maybeKW_spec v :
  (In (maybeKW v, v) documented /\ maybeKW v <> tok_eof /\ In v keyword_spellings)
  \/ (maybeKW v = tok_id /\ ~ In v keyword_spellings).
Proof.
  unfold maybeKW. destruct (find _ keywords) as [k|] eqn:E.
  - left. apply find_some in E as [Hin Heq]. apply bytes_eqb_spec in Heq. subst v.
    simpl in Hin. repeat (destruct Hin as [<-|Hin]; [simpl; repeat split; auto 60; discriminate|]).
    destruct Hin.
  - right. split; [reflexivity|]. intros Hin.
    simpl in Hin.
    assert (Hall : forall k, In k keywords -> bytes_eqb v (spelling k) = false)
      by (intros k Hk; now apply (find_none _ _ E)).
    repeat (destruct Hin as [<-|Hin]; [|]); [..|destruct Hin].
    all: match goal with H : forall k, _ |- _ =>
      first [ specialize (H tok_kw_if ltac:(simpl; auto 20)); discriminate
            | specialize (H tok_kw_then ltac:(simpl; auto 20)); discriminate
            | specialize (H tok_kw_else ltac:(simpl; auto 20)); discriminate
            | specialize (H tok_kw_assert ltac:(simpl; auto 20)); discriminate
            | specialize (H tok_kw_with ltac:(simpl; auto 20)); discriminate
            | specialize (H tok_kw_let ltac:(simpl; auto 20)); discriminate
            | specialize (H tok_kw_in ltac:(simpl; auto 20)); discriminate
            | specialize (H tok_kw_rec ltac:(simpl; auto 20)); discriminate
            | specialize (H tok_kw_inherit ltac:(simpl; auto 20)); discriminate
            | specialize (H tok_kw_or ltac:(simpl; auto 20)); discriminate ] end.
Qed.

(** outcome of the operator switch *)
Definition op_result (s : lst) (x : res (tkind * lst)) : Prop :=
  exists k v s', x = Ok (k, s') /\ mv0 v s s' /\
    ((k = tok_unknown /\ v = []) \/
     (k <> tok_unknown /\ k <> tok_eof /\ v <> [] /\
      (In (k, v) documented \/ (k = tok_op_pipe_into /\ v = b "|||>")))).

Lemma op_result_fixed s k v x r :
  rest s = v ++ r -> x = Ok (k, Lst (advs v (cur s)) r (diags s)) ->
  k <> tok_unknown -> k <> tok_eof -> In (k, v) documented -> v <> [] -> op_result s x.
Proof.
  intros Hr -> Hk Hk2 Hin Hv. exists k, v. eexists. split; [reflexivity|]. split; [now apply mv0_Lst|].
  right. auto.
Qed.

Ltac in_doc := simpl; auto 60.

Lemma single_result k c s r :
  rest s = c :: r -> k <> tok_unknown -> k <> tok_eof -> In (k, [c]) documented -> op_result s (single k s).
Proof.
  intros Hr Hk Hk2 Hin. apply (op_result_fixed s k [c] _ r); auto; [|discriminate].
  unfold single. now rewrite (consume1_spec _ _ _ Hr).
Qed.

Lemma prefix_or_result p k1 k2 c s r :
  rest s = c :: r -> k1 <> tok_unknown -> k1 <> tok_eof -> In (k1, b p) documented ->
  k2 <> tok_unknown -> k2 <> tok_eof -> In (k2, [c]) documented -> b p <> [] -> op_result s (prefix_or p k1 k2 s).
Proof.
  intros Hr ? ? ? ? ? ? ?. unfold prefix_or. prefix_case q Hq.
  - eapply op_result_fixed; eauto.
  - now apply (single_result k2 c s r).
Qed.

Lemma prefix_only_result p k s :
  k <> tok_unknown -> k <> tok_eof -> In (k, b p) documented -> b p <> [] -> op_result s (prefix_only p k s).
Proof.
  intros ? ? ? ?. unfold prefix_only. prefix_case q Hq.
  - eapply op_result_fixed; eauto.
  - exists tok_unknown, [], s. repeat split; auto.
Qed.

Lemma lexOp_spec c r s : rest s = c :: r -> op_result s (lexOp c s).
Proof.
  intros Hr. unfold lexOp.
  repeat match goal with
  | |- op_result _ (if Ascii.eqb c ?d then _ else _) =>
      let E := fresh "E" in
      destruct (Ascii.eqb c d) eqn:E;
      [ apply Ascii.eqb_eq in E; subst c;
        try (first [ apply (single_result _ _ _ _ Hr) | eapply (prefix_or_result _ _ _ _ _ _ Hr)
                   | apply prefix_only_result ]; solve [discriminate | in_doc])
      | ]
  end.
  - (* | *)
    prefix_case q Hq.
    + prefix_case q2 Hq2.
      * exists tok_op_pipe_into, (b "|||>"). eexists. split; [reflexivity|]. split.
        -- apply (mv0_trans (b "||") (b "|>") _ _ _ (mv0_Lst _ _ _ Hq)). now apply mv0_Lst.
        -- right. repeat split; try discriminate. now right.
      * eapply op_result_fixed; [exact Hq|reflexivity|discriminate|discriminate|in_doc|discriminate].
    + prefix_case q2 Hq2.
      * eapply op_result_fixed; [exact Hq2|reflexivity|discriminate|discriminate|in_doc|discriminate].
      * exists tok_unknown, [], s. repeat split; auto.
  - (* < *)
    prefix_case q Hq.
    + eapply op_result_fixed; [exact Hq|reflexivity|discriminate|discriminate|in_doc|discriminate].
    + eapply (prefix_or_result _ _ _ _ _ _ Hr); solve [discriminate | in_doc].
  - exists tok_unknown, [], s. repeat split; auto.
Qed.

(** what a token request in expression mode returns *)
Definition odd_token (k : tkind) (v : bytes) : Prop :=
  (k = tok_op_pipe_into /\ v = b "|||>") \/ (k = tok_spath /\ odd_spath v).

Lemma lexToken_spec s :
  exists k v s', lexToken s = Ok (Tok k (mkRange (cur s) (cur s')) v, s') /\ mv v s s' /\
    (rest s = [] -> k = tok_eof /\ v = []) /\
    (rest s <> [] -> k <> tok_eof /\ v <> []) /\
    (spelled PS_Expr k v \/ odd_token k v).
Proof.
  unfold lexToken, lpeek. destruct (rest s) as [|c r] eqn:Hr.
  { exists tok_eof, [], s. rewrite (mv_finish _ [] s s (mv_refl s)).
    split; [reflexivity|]. split; [apply mv_refl|]. split; [auto|]. split; [congruence|].
    left. apply sp_eof. }
  assert (OK : forall k v s', mv v s s' -> k <> tok_eof -> v <> [] -> (spelled PS_Expr k v \/ odd_token k v) ->
    exists k0 v0 s0, Ok (finishToken k s s', s') = Ok (Tok k0 (mkRange (cur s) (cur s0)) v0, s0) /\ mv v0 s s0 /\
    (c :: r = [] -> k0 = tok_eof /\ v0 = []) /\
    (c :: r <> [] -> k0 <> tok_eof /\ v0 <> []) /\
    (spelled PS_Expr k0 v0 \/ odd_token k0 v0)).
  { intros k v s' M Hk Hv Hsp. exists k, v, s'. rewrite (mv_finish _ _ _ _ M).
    split; [reflexivity|]. split; [exact M|]. split; [discriminate|]. auto. }
  assert (TP : (exists v s', tryPath c s = Ok (true, s') /\ mv0 v s s' /\ v <> [] /\ spelled PS_Expr tok_path_fragment v)
                \/ exists s', tryPath c s = Ok (false, s')).
  { unfold tryPath. match goal with |- context [if ?x then _ else _] => destruct x end; [|right; eauto].
    destruct (consumePathStart_spec s) as [H|H]; eauto. }
  destruct TP as [(v & s1 & -> & M & Hv & Hsp)|[s1 ->]]; cbn [bind].
  { apply (OK _ v); auto using mv0_mv. discriminate. }
  assert (TU : (exists v s', tryURI c s = Ok (true, s') /\ mv0 v s s' /\ v <> [] /\ spelled PS_Expr tok_uri v)
                \/ exists s', tryURI c s = Ok (false, s')).
  { unfold tryURI. destruct (isalpha c) eqn:Ha; [|right; eauto].
    destruct (consumeURI_spec s c r Hr Ha) as [H|H]; eauto. }
  destruct TU as [(v & s2 & -> & M & Hv & Hsp)|[s2 ->]]; cbn [bind].
  { apply (OK _ v); auto using mv0_mv. discriminate. }
  destruct (isdigit c) eqn:Hd.
  { destruct (lexNumbers_spec s c r Hr Hd) as (k & v & s3 & -> & M & Hv & Hk & Hsp). cbn [bind].
    apply (OK _ v); auto. }
  destruct (isalpha c || Ascii.eqb c "_")%bool eqn:Hid.
  { destruct (lexIdentifier_spec s c r Hr Hid) as (w & s4 & -> & M & Hs & Hw). cbn [bind].
    apply mv0_mv in M. rewrite (mv_slice _ _ _ M).
    destruct (maybeKW_spec (c :: w)) as [(Hin & Hne & _)|[-> Hin]].
    - apply (OK _ (c :: w)); auto; [discriminate|]. left. now apply sp_fixed.
    - apply (OK _ (c :: w)); auto; try discriminate. left. now apply sp_id. }
  assert (TS : (exists v s', trySPath c s = Ok (true, s') /\ mv0 v s s' /\ v <> [] /\
                   (spelled PS_Expr tok_spath v \/ odd_spath v))
                \/ exists s', trySPath c s = Ok (false, s')).
  { unfold trySPath. destruct (Ascii.eqb c "<") eqn:Ha; [|right; eauto].
    apply Ascii.eqb_eq in Ha. subst c.
    destruct (consumeSPath_spec s r Hr) as [H|H]; eauto. }
  destruct TS as [(v & s5 & -> & M & Hv & Hsp)|[s5 ->]]; cbn [bind].
  { apply (OK _ v); auto using mv0_mv; [discriminate|]. destruct Hsp; [now left|]. right. now right. }
  destruct (lexOp_spec c r s Hr) as (k & v & s6 & -> & M & Hcase). cbn [bind].
  destruct Hcase as [[-> ->]|(Hu & He & Hv & Hsp)].
  - destruct M as (B1 & B2 & B3). simpl in B1. rewrite B1 in Hr.
    simpl tkind_beq. cbn iota. rewrite (consume1_spec _ _ _ Hr). cbn [bind].
    apply (OK _ [c]); try discriminate.
    + apply mv0_mv. repeat split; simpl; [now rewrite B1, Hr|now rewrite B2|now rewrite B3].
    + left. apply sp_unknown.
  - destruct (tkind_beq k tok_unknown) eqn:E; [now apply internal_tkind_dec_bl in E|].
    apply (OK _ v); auto using mv0_mv. destruct Hsp as [H|H]; [left; now apply sp_fixed|].
    right. now left.
Qed.

Lemma lex_spec s :
  exists w k v s1 s', lex s = Ok (Tok k (mkRange (cur s1) (cur s')) v, s') /\
    mv w s s1 /\ trivia w (rest s1) /\ mv v s1 s' /\
    (rest s1 = [] -> k = tok_eof /\ v = []) /\
    (rest s1 <> [] -> k <> tok_eof /\ v <> []) /\
    (spelled PS_Expr k v \/ odd_token k v).
Proof.
  unfold lex. destruct (consumeTrivia_spec s) as (w & s1 & -> & M & Ht). cbn [bind].
  destruct (lexToken_spec s1) as (k & v & s' & -> & M2 & H1 & H2 & H3).
  exists w, k, v, s1, s'. auto 10.
Qed.

(** * The string and path modes *)
Lemma strpart_spec r p :
  exists w q, r = w ++ q /\ strpart_aux r p = (advs w p, q) /\ ~ In """"%char w /\ ~ In "\"%char w.
Proof.
  remember (List.length r) as n eqn:Hn. revert r p Hn.
  induction n as [n IH] using lt_wf_ind. intros r p Hn.
  assert (STOP : exists w q, r = w ++ q /\ (p, r) = (advs w p, q) /\ ~ In """"%char w /\ ~ In "\"%char w)
    by (exists [], r; auto).
  assert (STEP : forall c r1, r = c :: r1 -> c <> """"%char -> c <> "\"%char ->
     exists w q, r = w ++ q /\ strpart_aux r1 (adv c p) = (advs w p, q) /\ ~ In """"%char w /\ ~ In "\"%char w).
  { intros c r1 -> H1 H2.
    destruct (IH (List.length r1) ltac:(simpl in Hn; lia) r1 (adv c p) eq_refl) as (w & q & Hq & E & Hw1 & Hw2).
    exists (c :: w), q. split; [now rewrite Hq|]. split; [exact E|]. simpl. split; intros [H|H]; auto. }
  destruct r as [|c r1]; [exists [], []; auto|]. cbn [strpart_aux].
  destruct (Ascii.eqb c "\") eqn:E1; [exact STOP|]. apply Ascii.eqb_neq in E1.
  destruct (Ascii.eqb c """") eqn:E2; [exact STOP|]. apply Ascii.eqb_neq in E2.
  destruct r1 as [|c2 [|c3 r3]].
  - now apply STEP.
  - match goal with |- context [if ?x then _ else _] => destruct x end; [exact STOP|now apply STEP].
  - destruct (Ascii.eqb c "$" && Ascii.eqb c2 "$" && Ascii.eqb c3 "{")%bool eqn:E3.
    + apply andb_true_iff in E3 as [E3 E5]. apply andb_true_iff in E3 as [E3 E4].
      apply Ascii.eqb_eq in E3, E4, E5. subst.
      destruct (IH (List.length r3) ltac:(simpl; lia) r3 (advs (b "$${") p) eq_refl)
        as (w & q & Hq & E & Hw1 & Hw2).
      exists (b "$${" ++ w), q. split; [now rewrite Hq|]. split; [exact E|].
      simpl. split; intros [H|[H|[H|H]]]; auto; discriminate.
    + match goal with |- context [if ?x then _ else _] => destruct x end; [exact STOP|now apply STEP].
Qed.

Lemma occurs_quotes_cons c s :
  occurs (b "''") (c :: s) <-> ((c = "'"%char /\ exists y, s = "'"%char :: y) \/ occurs (b "''") s).
Proof.
  split.
  - intros ([|d x] & y & E); simpl in E.
    + injection E as -> ->. left. eauto.
    + injection E as -> ->. right. now exists x, y.
  - intros [[-> [y ->]]|(x & y & ->)].
    + now exists [], y.
    + now exists (c :: x), y.
Qed.

Lemma not_occurs_quotes_nil : ~ occurs (b "''") [].
Proof. intros ([|? ?] & y & E); discriminate. Qed.

Lemma indpart_spec r p :
  exists w q, r = w ++ q /\ indpart_aux r p = (advs w p, q) /\ ~ occurs (b "''") w.
Proof.
  remember (List.length r) as n eqn:Hn. revert r p Hn.
  induction n as [n IH] using lt_wf_ind. intros r p Hn.
  assert (STOP : exists w q, r = w ++ q /\ (p, r) = (advs w p, q) /\ ~ occurs (b "''") w)
    by (exists [], r; auto using not_occurs_quotes_nil).
  assert (STEP : forall c r1, r = c :: r1 -> (forall y, c = "'"%char -> r1 <> "'"%char :: y) ->
     exists w q, r = w ++ q /\ indpart_aux r1 (adv c p) = (advs w p, q) /\ ~ occurs (b "''") w).
  { intros c r1 -> H1.
    destruct (IH (List.length r1) ltac:(simpl in Hn; lia) r1 (adv c p) eq_refl) as (w & q & Hq & E & Hw).
    exists (c :: w), q. split; [now rewrite Hq|]. split; [exact E|].
    rewrite occurs_quotes_cons. intros [[-> [y ->]]|H]; [|now apply Hw].
    now apply (H1 (y ++ q)). }
  destruct r as [|c r1]; [exists [], []; auto using not_occurs_quotes_nil|]. cbn [indpart_aux].
  destruct r1 as [|c2 r2].
  { apply STEP; [reflexivity|discriminate]. }
  destruct (Ascii.eqb c "'" && Ascii.eqb c2 "'")%bool eqn:E1; [exact STOP|].
  assert (Hne : forall y, c = "'"%char -> c2 :: r2 <> "'"%char :: y).
  { intros y -> [= -> ->]. discriminate. }
  destruct r2 as [|c3 r3].
  - match goal with |- context [if ?x then _ else _] => destruct x end; [exact STOP|now apply STEP].
  - destruct (Ascii.eqb c "$" && Ascii.eqb c2 "$" && Ascii.eqb c3 "{")%bool eqn:E3.
    + apply andb_true_iff in E3 as [E3 E5]. apply andb_true_iff in E3 as [E3 E4].
      apply Ascii.eqb_eq in E3, E4, E5. subst.
      destruct (IH (List.length r3) ltac:(simpl; lia) r3 (advs (b "$${") p) eq_refl) as (w & q & Hq & E & Hw).
      exists (b "$${" ++ w), q. split; [now rewrite Hq|]. split; [exact E|].
      simpl. rewrite !occurs_quotes_cons.
      intros [[H _]|[[H _]|[[H _]|H]]]; try discriminate. now apply Hw.
    + match goal with |- context [if ?x then _ else _] => destruct x end; [exact STOP|now apply STEP].
Qed.

(** Successful outcome of a token request in one of the modes without trivia *)
Definition tok_result (m : pmode) (s : lst) (x : res (token * lst)) : Prop :=
  exists k v s', x = Ok (Tok k (mkRange (cur s) (cur s')) v, s') /\ mv v s s' /\ spelled m k v /\
    (rest s <> [] -> k <> tok_path_end -> v <> []).

Lemma tok_result_finish m k v s s' :
  mv v s s' -> spelled m k v -> (rest s <> [] -> k <> tok_path_end -> v <> []) ->
  tok_result m s (Ok (finishToken k s s', s')).
Proof. intros M Hsp Hv. exists k, v, s'. now rewrite (mv_finish _ _ _ _ M). Qed.

Lemma lexString_spec s :
  (rest s = ["\"%char] /\ exists why, lexString s = Crash why) \/
  (rest s <> ["\"%char] /\ tok_result PS_String s (lexString s)).
Proof.
  unfold lexString, lpeek. destruct (rest s) as [|c r] eqn:Hr.
  { right. split; [discriminate|]. apply (tok_result_finish _ _ []); [apply mv_refl|apply sp_str_eof|congruence]. }
  destruct (Ascii.eqb c """") eqn:E1.
  { apply Ascii.eqb_eq in E1. subst c. right. split; [discriminate|].
    rewrite (consume1_spec _ _ _ Hr). cbn [bind].
    apply (tok_result_finish _ _ (b """")); [apply mv0_mv; now repeat split|apply sp_str_quote|discriminate]. }
  destruct (Ascii.eqb c "\") eqn:E2.
  { apply Ascii.eqb_eq in E2. subst c. destruct r as [|d r].
    - left. split; [reflexivity|]. unfold consume. rewrite Hr. simpl. eauto.
    - right. split; [discriminate|].
      change (consume 2 s) with (consume (List.length ["\"%char; d]) s). rewrite (consume_spec ["\"%char; d] r s Hr). cbn [bind].
      apply (tok_result_finish _ _ ["\"%char; d]);
        [apply mv0_mv; now apply mv0_Lst|apply sp_str_escape|discriminate]. }
  right. apply Ascii.eqb_neq in E1, E2. split; [congruence|].
  prefix_case q Hq.
  { apply (tok_result_finish _ _ (b "${")); [apply mv0_mv; now apply mv0_Lst|apply sp_str_interp|discriminate]. }
  destruct (strpart_spec (rest s) (cur s)) as (w & q & Hw & E & Hw1 & Hw2). rewrite Hr in E. rewrite ?Hr, E.
  rewrite Hr in Hw.
  assert (Hne : w <> []).
  { intros ->. simpl in Hw. subst q. cbn [strpart_aux] in E.
    rewrite (proj2 (Ascii.eqb_neq _ _) E1), (proj2 (Ascii.eqb_neq _ _) E2) in E.
    assert (ADV : forall x q, x ++ q = c :: r -> strpart_aux q (advs x (cur s)) = (advs [] (cur s), c :: r) -> x = []).
    { intros x q Hx Ex. destruct (strpart_spec q (advs x (cur s))) as (u & q' & -> & E' & _).
      rewrite E' in Ex. injection Ex as _ ->.
      apply (f_equal (@List.length _)) in Hx. rewrite !app_length in Hx.
      destruct x; [reflexivity|simpl in Hx; lia]. }
    destruct r as [|c2 [|c3 r3]].
    - specialize (ADV [c] [] eq_refl E). discriminate.
    - destruct (Ascii.eqb c "$" && Ascii.eqb c2 "{")%bool eqn:Ed.
      + apply andb_true_iff in Ed as [Ea Eb]. apply Ascii.eqb_eq in Ea, Eb. subst. now apply (Hq []).
      + specialize (ADV [c] [c2] eq_refl E). discriminate.
    - destruct (Ascii.eqb c "$" && Ascii.eqb c2 "$" && Ascii.eqb c3 "{")%bool.
      + specialize (ADV [c; c2; c3] r3 eq_refl E). discriminate.
      + destruct (Ascii.eqb c "$" && Ascii.eqb c2 "{")%bool eqn:Ed.
        * apply andb_true_iff in Ed as [Ea Eb]. apply Ascii.eqb_eq in Ea, Eb. subst. now apply (Hq (c3 :: r3)).
        * specialize (ADV [c] (c2 :: c3 :: r3) eq_refl E). discriminate. }
  apply (tok_result_finish _ _ w); [|now apply sp_str_part|auto].
  apply mv0_mv. repeat split. simpl. congruence.
Qed.

Lemma lexIndString_spec s :
  (rest s = b "''\" /\ exists why, lexIndString s = Crash why) \/
  (rest s <> b "''\" /\ tok_result PS_IndString s (lexIndString s)).
Proof.
  unfold lexIndString, eof. destruct (rest s) as [|c r] eqn:Hr.
  { right. split; [discriminate|]. apply (tok_result_finish _ _ []); [apply mv_refl|apply sp_ind_eof|congruence]. }
  prefix_case q Hq.
  - rewrite Hr in Hq.
    assert (Ms : forall w q', rest s = b "''" ++ w ++ q' ->
              mv (b "''" ++ w) s (Lst (advs w (advs (b "''") (cur s))) q' (diags s))).
    { intros w q' E. apply mv0_mv. repeat split. simpl. exact E. }
    prefix_case q1 Hq1.
    { simpl in Hq1. subst q. right. rewrite Hq. split; [discriminate|].
      apply (tok_result_finish _ _ (b "''$")); [|apply sp_ind_dollar|discriminate].
      apply (Ms (b "$")). now rewrite Hr. }
    prefix_case q2 Hq2.
    { simpl in Hq2. subst q. right. rewrite Hq. split; [discriminate|].
      apply (tok_result_finish _ _ (b "'''")); [|apply sp_ind_quotes|discriminate].
      apply (Ms (b "'")). now rewrite Hr. }
    prefix_case q3 Hq3.
    { simpl in Hq3. subst q. destruct q3 as [|d q3].
      - left. rewrite Hq. split; [reflexivity|]. simpl. eauto.
      - right. rewrite Hq. split; [discriminate|].
        rewrite (consume1_spec d q3); [|reflexivity]. cbn [bind].
        apply (tok_result_finish _ _ (b "''\" ++ [d])); [|apply sp_ind_any|discriminate].
        apply (Ms (b "\" ++ [d])). now rewrite Hr. }
    right. split.
    { rewrite Hq. intros [= ->]. simpl in Hq3. now apply (Hq3 []). }
    apply (tok_result_finish _ _ (b "''")); [|apply sp_ind_quote|discriminate].
    rewrite <- Hr in Hq. apply mv0_mv. now apply mv0_Lst.
  - right. split.
    { intros E. rewrite E in Hr. now apply (Hq (b "\")). }
    prefix_case q1 Hq1.
    { apply (tok_result_finish _ _ (b "${")); [apply mv0_mv; now apply mv0_Lst|apply sp_ind_interp|discriminate]. }
    destruct (indpart_spec (rest s) (cur s)) as (w & q & Hw & E & Hw1). rewrite Hr in E. rewrite ?Hr, E.
    rewrite Hr in Hw.
    assert (Hne : w <> []).
    { intros ->. simpl in Hw. subst q. cbn [indpart_aux] in E.
      assert (ADV : forall x q, x ++ q = c :: r -> indpart_aux q (advs x (cur s)) = (advs [] (cur s), c :: r) -> x = []).
      { intros x q Hx Ex. destruct (indpart_spec q (advs x (cur s))) as (u & q' & -> & E' & _).
        rewrite E' in Ex. injection Ex as _ ->.
        apply (f_equal (@List.length _)) in Hx. rewrite !app_length in Hx.
        destruct x; [reflexivity|simpl in Hx; lia]. }
      destruct r as [|c2 r2].
      { specialize (ADV [c] [] eq_refl E). discriminate. }
      destruct (Ascii.eqb c "'" && Ascii.eqb c2 "'")%bool eqn:Eq.
      { apply andb_true_iff in Eq as [Ea Eb]. apply Ascii.eqb_eq in Ea, Eb. subst. now apply (Hq r2). }
      destruct r2 as [|c3 r3].
      - destruct (Ascii.eqb c "$" && Ascii.eqb c2 "{")%bool eqn:Ed.
        + apply andb_true_iff in Ed as [Ea Eb]. apply Ascii.eqb_eq in Ea, Eb. subst. now apply (Hq1 []).
        + specialize (ADV [c] [c2] eq_refl E). discriminate.
      - destruct (Ascii.eqb c "$" && Ascii.eqb c2 "$" && Ascii.eqb c3 "{")%bool.
        + specialize (ADV [c; c2; c3] r3 eq_refl E). discriminate.
        + destruct (Ascii.eqb c "$" && Ascii.eqb c2 "{")%bool eqn:Ed.
          * apply andb_true_iff in Ed as [Ea Eb]. apply Ascii.eqb_eq in Ea, Eb. subst. now apply (Hq1 (c3 :: r3)).
          * specialize (ADV [c] (c2 :: c3 :: r3) eq_refl E). discriminate. }
    apply (tok_result_finish _ _ w); [|now apply sp_ind_part|auto].
    apply mv0_mv. repeat split. simpl. congruence.
Qed.

Lemma lexPath_spec s : tok_result PS_Path s (lexPath s).
Proof.
  unfold lexPath, eof. destruct (rest s) as [|c r] eqn:Hr.
  { apply (tok_result_finish _ _ []); [apply mv_refl|apply sp_path_end|congruence]. }
  prefix_case q Hq.
  { apply (tok_result_finish _ _ (b "${")); [apply mv0_mv; now apply mv0_Lst|apply sp_path_interp|discriminate]. }
  unfold peekPrefix. destruct (starts_with (b "~/") (rest s)) eqn:Eh.
  { apply starts_with_spec in Eh as [q Hq2].
    change (consume 2 s) with (consume (List.length (b "~/")) s). rewrite (consume_spec (b "~/") q s Hq2). cbn [bind]. set (s2 := Lst _ _ _).
    destruct (consumeWhile_spec isPathOrSlash s2) as (w & M & Hw & _).
    apply (tok_result_finish _ _ (b "~/" ++ w)); [| |discriminate].
    - apply mv0_mv. apply (mv0_trans _ _ _ _ _ (mv0_Lst _ _ _ Hq2) M).
    - apply sp_path_home. apply (Forall_class _ _ _ isPathOrSlash_spec Hw). }
  unfold lpeek. rewrite Hr. destruct (isPathOrSlash c) eqn:Ec.
  - destruct (consumeWhile_cons isPathOrSlash s c r Hr Ec) as (w & M & Hw & _).
    apply (tok_result_finish _ _ (c :: w)); [now apply mv0_mv| |discriminate].
    apply sp_path_more; [discriminate|]. apply (Forall_class _ _ _ isPathOrSlash_spec Hw).
  - apply (tok_result_finish _ _ []); [apply mv_refl|apply sp_path_end|congruence].
Qed.

(** * One specification for all modes *)
Definition crashing (m : pmode) (text : bytes) : Prop :=
  (m = PS_String /\ text = b "\") \/ (m = PS_IndString /\ text = b "''\").

Lemma lex_mode_spec m s :
  (crashing m (rest s) /\ exists why, lex_mode m s = Crash why) \/
  (~ crashing m (rest s) /\
   exists w k v s1 s', lex_mode m s = Ok (Tok k (mkRange (cur s1) (cur s')) v, s') /\
     mv w s s1 /\ mv v s1 s' /\
     (m = PS_Expr -> trivia w (rest s1) /\ (rest s1 = [] -> k = tok_eof) /\ (rest s1 <> [] -> k <> tok_eof /\ v <> [])) /\
     (m <> PS_Expr -> s1 = s /\ w = []) /\
     (rest s <> [] -> k = tok_path_end \/ w ++ v <> []) /\
     (spelled m k v \/ (m = PS_Expr /\ odd_token k v))).
Proof.
  assert (TR : forall m, m <> PS_Expr -> tok_result m s (lex_mode m s) ->
   exists w k v s1 s', lex_mode m s = Ok (Tok k (mkRange (cur s1) (cur s')) v, s') /\
     mv w s s1 /\ mv v s1 s' /\
     (m = PS_Expr -> trivia w (rest s1) /\ (rest s1 = [] -> k = tok_eof) /\ (rest s1 <> [] -> k <> tok_eof /\ v <> [])) /\
     (m <> PS_Expr -> s1 = s /\ w = []) /\
     (rest s <> [] -> k = tok_path_end \/ w ++ v <> []) /\
     (spelled m k v \/ (m = PS_Expr /\ odd_token k v))).
  { intros m0 Hm0 (k & v & s' & E & M & Hsp & Hv). exists [], k, v, s, s'.
    split; [exact E|]. split; [apply mv_refl|]. split; [exact M|]. split; [congruence|].
    split; [auto|]. split; [|auto]. intros Hr. simpl.
    destruct (tkind_eq_dec k tok_path_end); auto. }
  destruct m; unfold crashing.
  - right. split; [intros [[? _]|[? _]]; discriminate|].
    destruct (lex_spec s) as (w & k & v & s1 & s' & E & M1 & Ht & M2 & H1 & H2 & H3).
    exists w, k, v, s1, s'. split; [exact E|]. split; [exact M1|]. split; [exact M2|].
    split; [|split; [congruence|split]].
    + intros _. split; [exact Ht|]. split; [apply H1|exact H2].
    + intros Hr. right. destruct w as [|d w]; [|discriminate]. simpl.
      apply H2. destruct M1 as (A1 & _). simpl in A1. now rewrite <- A1.
    + destruct H3; auto.
  - destruct (lexString_spec s) as [[E H]|[E H]].
    + left. split; [left; auto|exact H].
    + right. split; [intros [[_ ?]|[? _]]; [now apply E|discriminate]|]. apply TR; [discriminate|exact H].
  - destruct (lexIndString_spec s) as [[E H]|[E H]].
    + left. split; [right; auto|exact H].
    + right. split; [intros [[? _]|[_ ?]]; [discriminate|now apply E]|]. apply TR; [discriminate|exact H].
  - right. split; [intros [[? _]|[? _]]; discriminate|]. apply TR; [discriminate|apply lexPath_spec].
Qed.

(** * Global facts *)
Definition good (src : bytes) (s : lst) : Prop :=
  exists pre, src = pre ++ rest s /\ cursor_after pre (cur s).

Lemma good_init src : good src (lex_init src).
Proof. exists []. split; [reflexivity|apply cursor_after_nil]. Qed.

Lemma good_mv src w s s' : good src s -> mv w s s' -> good src s'.
Proof.
  intros (pre & E & C) (A1 & A2 & _). exists (pre ++ w). split.
  - rewrite E, A1. apply app_assoc.
  - rewrite A2. now apply cursor_after_advs.
Qed.

Lemma good_reach src s c : good src s -> reach s c -> cursor_in src c.
Proof.
  intros (pre & E & C) (w & r & Er & ->). exists (pre ++ w), r. split.
  - rewrite E, Er. apply app_assoc.
  - now apply cursor_after_advs.
Qed.

Lemma good_cur src s : good src s -> cursor_in src (cur s).
Proof. intros (pre & E & C). exists pre, (rest s). auto. Qed.

Lemma good_setCur src c s : cursor_in src c -> good src (Lst c (skipn (off c) src) (diags s)).
Proof.
  intros (pre & post & E & C). exists pre. simpl. split; [|exact C].
  destruct C as (Ho & _). rewrite Ho, E, skipn_app, skipn_all, Nat.sub_diag. reflexivity.
Qed.

Lemma good_rest src s : good src s -> rest s = skipn (off (cur s)) src.
Proof.
  intros (pre & E & (Ho & _)). rewrite Ho, E, skipn_app, skipn_all, Nat.sub_diag. reflexivity.
Qed.

Lemma token_faithful_mv src k v s s' :
  good src s -> mv v s s' -> token_faithful src (Tok k (mkRange (cur s) (cur s')) v).
Proof.
  intros G M. pose proof (good_mv _ _ _ _ G M) as G'. split; [|split; [|split]]; simpl.
  - now apply good_cur.
  - now apply good_cur.
  - destruct M as (_ & -> & _). rewrite advs_off. lia.
  - unfold slice. rewrite <- (good_rest _ _ G). destruct M as (A1 & -> & _). rewrite advs_off, A1.
    replace (off (cur s) + List.length v - off (cur s)) with (List.length v) by lia.
    rewrite firstn_app, Nat.sub_diag, firstn_all. simpl. now rewrite app_nil_r.
Qed.

Definition diags_in (src : bytes) (ds : list diag) : Prop :=
  Forall (fun d => Forall (cursor_in src) (diag_cursors d)) ds.

Lemma diags_in_mv src w s s' : good src s -> mv w s s' -> diags_in src (diags s) -> diags_in src (diags s').
Proof.
  intros G (_ & _ & nd & -> & F) D. apply Forall_app. split; [|exact D].
  eapply Forall_impl; [|exact F]. intros d [Fd _]. eapply Forall_impl; [|exact Fd].
  intros c. now apply good_reach.
Qed.

Lemma lex_mode_good src m s t s' :
  good src s -> lex_mode m s = Ok (t, s') ->
  good src s' /\ token_faithful src t /\ (diags_in src (diags s) -> diags_in src (diags s')).
Proof.
  intros G E. destruct (lex_mode_spec m s) as [[_ [why E']]|[_ (w & k & v & s1 & s2 & E' & M1 & M2 & _)]];
    [congruence|].
  rewrite E in E'. injection E' as -> ->.
  pose proof (good_mv _ _ _ _ G M1) as G1. split; [now apply (good_mv _ v s1)|]. split.
  - now apply token_faithful_mv.
  - intros D. apply (diags_in_mv _ _ _ _ G1 M2). now apply (diags_in_mv _ _ _ _ G M1).
Qed.

Lemma session_inv src s ts :
  session src s ts -> good src s /\ Forall (token_faithful src) ts /\ diags_in src (diags s).
Proof.
  induction 1 as [|m s ts t s' _ (G & F & D) E|c s ts s' _ (G & F & D) Hc E].
  - split; [apply good_init|]. split; constructor.
  - destruct (lex_mode_good _ _ _ _ _ G E) as (G' & Ft & D'). split; [exact G'|]. split; [|auto].
    apply Forall_app. split; auto.
  - unfold setCur in E. destruct (Nat.leb (off c) (List.length src)); [|discriminate].
    injection E as <-. split; [now apply good_setCur|]. split; auto.
Qed.

Lemma setCur_ok src c s : cursor_in src c -> exists s', setCur src c s = Ok s'.
Proof.
  intros (pre & post & -> & (Ho & _)). unfold setCur.
  rewrite (proj2 (Nat.leb_le _ _)); [|rewrite Ho, app_length; lia]. eauto.
Qed.

(** * Whole documents *)
Lemma lex_all_f_spec fuel s :
  List.length (rest s) < fuel ->
  exists ts s', lex_all_f fuel s = Ok (ts, s') /\ tiled (off (cur s)) (rest s) ts /\
     List.length ts <= S (List.length (rest s)).
Proof.
  revert s; induction fuel as [|fuel IH]; intros s Hf; [lia|]. cbn [lex_all_f].
  destruct (lex_spec s) as (w & k & v & s1 & s' & -> & M1 & Ht & M2 & H1 & H2 & H3). cbn [bind tk].
  pose proof (mv_length _ _ _ M1) as L1. pose proof (mv_length _ _ _ M2) as L2.
  destruct M1 as (A1 & A2 & _). destruct M2 as (B1 & B2 & _).
  destruct (tkind_beq k tok_eof) eqn:Ek.
  - apply internal_tkind_dec_bl in Ek. subst k.
    assert (Hr1 : rest s1 = []).
    { destruct (rest s1) eqn:Hr1; [reflexivity|]. now destruct (H2 ltac:(discriminate)). }
    destruct (H1 Hr1) as [_ ->]. rewrite Hr1, app_nil_r in A1. rewrite Hr1 in Ht.
    eexists _, s'. split; [reflexivity|]. split; [|simpl; lia].
    rewrite A1. apply tiled_end; simpl; auto.
    + now rewrite A2, advs_off.
    + rewrite B2, A2. simpl. now rewrite advs_off.
  - assert (Hr1 : rest s1 <> []).
    { intros Hr1. destruct (H1 Hr1) as [-> _]. discriminate. }
    destruct (H2 Hr1) as [Hk Hv].
    assert (0 < List.length v) by (destruct v; [congruence|simpl; lia]).
    destruct (IH s') as (ts & s2 & -> & Htl & Hlen); [lia|]. cbn [bind].
    eexists _, s2. split; [reflexivity|]. split; [|simpl; lia].
    rewrite A1, B1. apply tiled_token; simpl; auto.
    + now rewrite <- B1.
    + now rewrite A2, advs_off.
    + rewrite B2, A2, !advs_off. lia.
    + replace (off (cur s) + List.length w + List.length v) with (off (cur s')); [exact Htl|].
      rewrite B2, A2, !advs_off. lia.
Qed.

Lemma lex_all_spec src :
  exists ts s', lex_all src = Ok (ts, s') /\ tiled 0 src ts /\ List.length ts <= S (List.length src).
Proof. apply (lex_all_f_spec (S (List.length src)) (lex_init src)). simpl. lia. Qed.

(** progress of a single request *)
Lemma lex_mode_progress src m s t s' :
  good src s -> lex_mode m s = Ok (t, s') -> off (cur s) < List.length src ->
  tk t = tok_path_end \/ off (cur s) < off (cur s').
Proof.
  intros G E Hlt.
  destruct (lex_mode_spec m s) as [[_ [why E']]|[_ (w & k & v & s1 & s2 & E' & M1 & M2 & _ & _ & Hp & _)]];
    [congruence|].
  rewrite E in E'. injection E' as -> ->. simpl.
  destruct Hp as [->|Hp]; auto.
  - rewrite (good_rest _ _ G). intros Hn. apply (f_equal (@List.length _)) in Hn.
    rewrite skipn_length in Hn. simpl in Hn. lia.
  - right. destruct M1 as (_ & A2 & _), M2 as (_ & B2 & _). rewrite B2, A2, !advs_off.
    destruct w; simpl in *; [destruct v; [congruence|simpl; lia]|lia].
Qed.

Lemma lex_mode_mono m s t s' : lex_mode m s = Ok (t, s') -> off (cur s) <= off (cur s').
Proof.
  intros E.
  destruct (lex_mode_spec m s) as [[_ [why E']]|[_ (w & k & v & s1 & s2 & E' & M1 & M2 & _)]]; [congruence|].
  rewrite E in E'. injection E' as -> ->.
  destruct M1 as (_ & A2 & _), M2 as (_ & B2 & _). rewrite B2, A2, !advs_off. lia.
Qed.
