(** Reading back indented strings without quotes and dollars. *)
From Verif Require Import Base Diag LexModel AstModel PSupModel SemaModel ParseModel LexProofs ConnModel ActModel ActSpec ReadTools ReadString ReadJson ReadJson2 ReadJson3.

Definition plain_text (x : bytes) : Prop := forall c, In c x -> c <> "'"%char /\ c <> "$"%char.

Lemma escape_plain x : plain_text x -> escapeForIndentedString x = x.
Proof.
  induction x as [|c x IH]; intros P; [reflexivity|]. cbn [escapeForIndentedString].
  destruct (P c (or_introl eq_refl)) as [N1 N2]. rewrite IH by (intros d D; apply P; now right).
  destruct (Ascii.eqb_spec c "'"); [congruence|]. destruct (Ascii.eqb_spec c "$"); [congruence|]. cbn [andb]. destruct x; reflexivity.
Qed.

Lemma indpart_plain x y : plain_text x -> forall p, indpart_aux (x ++ b "''" ++ y) p = (advs x p, b "''" ++ y).
Proof.
  induction x as [|c x IH]; intros P p; [reflexivity|]. change ((c :: x) ++ b "''" ++ y) with (c :: (x ++ b "''" ++ y)). cbn [indpart_aux].
  destruct (P c (or_introl eq_refl)) as [N1 N2].
  destruct (Ascii.eqb_spec c "'"); [congruence|]. destruct (Ascii.eqb_spec c "$"); [congruence|]. cbn [andb].
  change (advs (c :: x) p) with (advs x (adv c p)). rewrite <- (IH (fun d D => P d (or_intror D))).
  destruct (x ++ b "''" ++ y) as [|c2 [|c3 t]]; reflexivity.
Qed.

Lemma lexes_quote2 y : stops y -> lexes PS_IndString (b "''" ++ y) tok_quote2 (b "''") y.
Proof.
  intros Y c ds. cbn [lex_mode]. unfold lexIndString.
  unfold consumePrefix, peekPrefix. unfold eof. cbn [rest cur diags].
  replace (starts_with (b "''") (b "''" ++ y)) with true by reflexivity.
  change (LexModel.consume (List.length (b "''")) (Lst c (b "''" ++ y) ds)) with (@Ok lst (Lst (adv "'" (adv "'" c)) y ds)). cbn [bind].
  unfold consumePrefix, peekPrefix. cbn [rest].
  assert (N : forall d, d <> " "%char -> d <> "010"%char -> d <> ";"%char -> starts_with [d] y = false).
  { intros d D1 D2 D3. destruct y as [|e y]; [reflexivity|]. apply (sw_ne d []). intros X. cbn in Y. intuition congruence. }
  change (b "$") with ["$"%char]. change (b "'") with ["'"%char]. change (b "\") with ["\"%char].
  rewrite !N by discriminate. cbn [bind].
  eexists _, _. split; [reflexivity|]. split; [reflexivity|]. apply (slice_adv c (b "''") y).
Qed.

Lemma lexes_indpart x y : x <> [] -> plain_text x -> lexes PS_IndString (x ++ b "''" ++ y) tok_string_part x (b "''" ++ y).
Proof.
  intros NE P c ds. cbn [lex_mode]. unfold lexIndString. destruct x as [|a x]; [congruence|].
  destruct (P a (or_introl eq_refl)) as [N1 N2].
  unfold consumePrefix, peekPrefix. unfold eof. cbn [rest cur diags].
  change ((a :: x) ++ b "''" ++ y) with (a :: (x ++ b "''" ++ y)).
  replace (starts_with (b "''") (a :: x ++ b "''" ++ y)) with false by (symmetry; apply (sw_ne "'"%char (b "'")); congruence).
  replace (starts_with (b "${") (a :: x ++ b "''" ++ y)) with false by (symmetry; apply (sw_ne "$"%char (b "{")); congruence).
  cbn [bind]. change (a :: x ++ b "''" ++ y) with ((a :: x) ++ b "''" ++ y). rewrite indpart_plain by exact P.
  eexists _, _. split; [reflexivity|]. split; [reflexivity|]. apply slice_adv.
Qed.

Section Src.
Variable src : bytes.

Lemma ind_string_reads x y k ms sy ds : mode_of ms = PS_Expr -> plain_text x -> stops y -> 3 < k ->
  forall r j, lexes PS_Expr r tok_quote2 (b "''") (x ++ b "''" ++ y) -> j <= 1 ->
  ReadString.reads src k (QString true) ms sy ds r j (is_text x) y 0.
Proof.
  intros M P Y K r j LX J s S. destruct k as [|k]; [lia|]. rewrite run_S. cbn [step]. unfold parseString.
  apply ends_bind. eapply ends_peek0; [exact S|rewrite M; exact LX|]. intros t s1 K1 V1 S1 P1 _.
  rewrite K1. cbn [tkind_beq passert]. apply ends_bind. apply ends_ret.
  apply ends_bind. eapply ends_consume; [exact S1|rewrite M; exact LX|]. intros s2 S2 B2.
  assert (S2' : St ms sy ds (x ++ b "''" ++ y) 0 s2) by (eapply St_more; [exact S2|lia]).
  eapply ends_withSync; [exact S2'|]. intros s3 S3 P3.
  assert (B3 : begun s3) by (unfold begun; now rewrite P3).
  apply ends_bind. apply ends_assertLast; [exact B3|].
  eapply ends_withState; [exact S3|]. intros s4 S4 P4.
  assert (B4 : begun s4) by (unfold begun; now rewrite P4).
  assert (PE : forall k cb acc sy s, 0 < k -> begun s -> St (PS_IndString :: ms) sy ds (b "''" ++ y) 1 s ->
    ends (run src k (QParts cb acc)) s (fun a s' => exists i r, a = Some (NParts i r (mergeFragments acc)) /\
      St (PS_IndString :: ms) sy ds (b "''" ++ y) 1 s' /\ begun s')).
  { intros k' cb acc sy' s' K' Bg S'. destruct k' as [|k']; [lia|]. rewrite run_S. cbn [step]. unfold parseStringParts. apply ends_bind.
    eapply ends_peek0; [exact S'|apply lexes_quote2; exact Y|]. intros t' s1' K1' V' S1' P1' _. rewrite K1'.
    assert (B1 : begun s1') by (unfold begun; now rewrite P1').
    apply ends_bind. apply ends_assertLast; [exact B1|].
    apply ends_bind. apply ends_toLast; [exact B1|]. intros r'.
    apply ends_bind. eapply ends_fresh; [exact S1'|]. intros i s2' S2'' P2'.
    apply ends_ret. exists i, r'. split; [reflexivity|]. split; [eapply St_more; [exact S2''|lia]|unfold begun; congruence]. }
  assert (G : ends (let! begin_ := lCur in run src k (QParts begin_ [])) s4 (fun a s' => exists i r,
    a = Some (NParts i r (match x with [] => [] | _ => [inl x] end)) /\ St (PS_IndString :: ms) (tok_quote2 :: sy) ds (b "''" ++ y) 1 s' /\ begun s')).
  { destruct x as [|c x].
    - apply ends_bind. unfold lCur. apply ends_bind. eapply ends_peek0; [exact S4|apply lexes_quote2; exact Y|]. intros t5 s5 _ _ S5 P5 _. apply ends_ret.
      apply PE; [lia|unfold begun; congruence|exact S5].
    - assert (L : lexes PS_IndString ((c :: x) ++ b "''" ++ y) tok_string_part (c :: x) (b "''" ++ y)) by (apply lexes_indpart; [discriminate|exact P]).
      apply ends_bind. unfold lCur. apply ends_bind. eapply ends_peek0; [exact S4|exact L|]. intros t5 s5 _ _ S5 P5 _. apply ends_ret.
      destruct k as [|k]; [lia|]. rewrite run_S. cbn [step]. unfold parseStringParts. apply ends_bind.
      eapply ends_peek0; [exact S5|exact L|]. intros t6 s6 K6 V6 S6 P6 _. rewrite K6, V6.
      apply ends_bind. eapply ends_consume; [exact S6|exact L|]. intros s7 S7 B7.
      eapply ends_mono; [apply PE; [lia|exact B7|eapply St_more; [exact S7|lia]]|].
      intros a s8 (i & r0 & -> & S8 & B8). exists i, r0. split; [|auto].
      do 2 f_equal. change (mergeFragments (texts [c :: x]) = [inl (c :: x)]). rewrite merge_texts by (intros [X|[]]; discriminate).
      cbn [List.concat]. now rewrite app_nil_r. }
  apply ends_bind. unfold ends in G. destruct G as (a & s6 & R & i & rg & -> & S6 & B6). unfold pbind in R.
  destruct (lCur s4) as [[cb s5]|w|] eqn:EL; try discriminate R. exists cb, s5. split; [exact EL|].
  apply ends_bind. eexists _, s6. split; [exact R|].
  apply ends_bind. eapply ends_expect; [exact S6|apply lexes_quote2; exact Y|]. intros t7 s7 K7 V7 S7 P7.
  apply ends_bind. eapply ends_consume; [exact S7|apply lexes_quote2; exact Y|]. intros s8 S8 B8.
  apply ends_bind. eapply ends_fresh; [exact S8|]. intros i9 s9 S9 P9.
  apply ends_ret. exists y. split; [eapply St_more; [exact S9|lia]|].
  intros s10 S10 P10. exists y, 0. split; [exact S10|].
  intros s11 S11 P11. eexists. split; [reflexivity|]. split; [|split; [exact S11|]].
  - unfold is_text. eexists _, _, _, _. reflexivity.
  - unfold begun. congruence.
Qed.

Lemma lexes_open w y : blanks w -> lexes PS_Expr (w ++ b "''" ++ y) tok_quote2 (b "''") y.
Proof.
  intros W. apply lexes_blanks; [exact W|repeat split; discriminate|]. intros c ds.
  set (s := Lst c (b "''" ++ y) ds).
  exists (finishToken tok_quote2 s (Lst (adv "'" (adv "'" c)) y ds)), (adv "'" (adv "'" c)).
  split; [|split; [reflexivity|apply (slice_adv c (b "''") y ds ds)]].
  unfold lexToken, s. cbn [lpeek rest b list_ascii_of_string app]. cbn [tryPath tryURI trySPath bind].
  change (isdigit "'") with false. change (isalpha "'" || Ascii.eqb "'" "_")%bool with false. cbn [bind].
  change (lexOp "'" (Lst c ("'"%char :: "'"%char :: y) ds)) with (@Ok (tkind * lst) (tok_quote2, Lst (adv "'" (adv "'" c)) y ds)).
  reflexivity.
Qed.

Lemma ind_value_reads x0 : plain_text x0 -> let t := b "''" ++ x0 ++ b "''" in
  Expr src (JString x0) t.
Proof.
  intros P t.
  assert (L : forall w x, blanks w -> stops x -> lexes PS_Expr (w ++ t ++ x) tok_quote2 (b "''") (x0 ++ b "''" ++ x)).
  { intros w x W X. unfold t. rewrite <- !app_assoc. now apply lexes_open. }
  assert (NN : ~ negative (JString x0)) by (intros (z & [E|E] & _); discriminate).
  assert (Sm : Simple src (fun _ => false) (JString x0) t).
  { intros _ w x m ms sy ds j M W X F J s S. destruct m as [|m]; [lia|]. rewrite run_S. cbn [ParseModel.step]. unfold parseExprSimple.
    cbn [maxj] in J. unfold t in F. rewrite !app_length in F. cbn [b List.length list_ascii_of_string] in F.
    apply ends_bind. eapply ends_peek0; [exact S|rewrite M; apply L; assumption|]. intros t1 s1 K1 V1 S1 P1 _. rewrite K1.
    eapply ends_mono; [eapply (ind_string_reads x0 x m ms sy ds M P X); [lia|exact (L w x W X)| |exact S1]; lia|].
    intros a s2 (n & -> & (i & r & ip & rp & ->) & S2 & B2). eexists. split; [reflexivity|]. split.
    - constructor. eexists _, _, _, _, _. split; [reflexivity|]. destruct x0; auto.
    - split; [eapply St_more; [exact S2|lia]|exact B2]. }
  apply (expr_simple src (fun _ => false) _ _ tok_quote2 (b "''")); [|cbn; auto|reflexivity|exact NN|exact Sm]. intros w x W X. eexists. apply L; assumption.
Qed.
End Src.

Lemma ind_reads_back x : plain_text x -> exists n, parse (b "''" ++ x ++ b "''") = Ok (Some n, []) /\ string_value n x.
Proof.
  intros P. destruct (parse_reads (JString x) (b "''" ++ x ++ b "''")) as (n & Pn & D); [now apply ind_value_reads|].
  exists n. split; [exact Pn|]. inversion D; subst; try (destruct H as [X|X]; discriminate); assumption.
Qed.
