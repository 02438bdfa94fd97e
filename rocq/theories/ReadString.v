(** Reading back double-quoted strings written by escapeNixString. *)
From Verif Require Import Base Diag LexModel AstModel PSupModel SemaModel ParseModel LexProofs ConnModel ActModel ReadTools.

Definition Q : ascii := """".

Lemma esc_brace s y : starts_with (b "${") (escapeNixString s ++ Q :: y) = false.
Proof.
  destruct s as [|c s]; [reflexivity|]. cbn [escapeNixString].
  repeat match goal with |- context [if Ascii.eqb c ?d then _ else _] => destruct (Ascii.eqb_spec c d); [subst; reflexivity|] end.
  destruct (Ascii.eqb_spec c "$") as [->|N].
  - destruct s as [|c2 s2]; [reflexivity|]. destruct (Ascii.eqb_spec c2 "{") as [->|N2]; [reflexivity|].
    change (starts_with (b "${") (("$"%char :: escapeNixString (c2 :: s2)) ++ Q :: y)) with
      (starts_with (b "{") (escapeNixString (c2 :: s2) ++ Q :: y)).
    cbn [escapeNixString].
    repeat match goal with |- context [if Ascii.eqb c2 ?d then _ else _] => destruct (Ascii.eqb_spec c2 d); [subst; try reflexivity|] end.
    + destruct s2 as [|c3 s3]; [reflexivity|]. destruct (Ascii.eqb c3 "{"); reflexivity.
    + apply (sw_ne "{"%char []). assumption.
  - apply (sw_ne "$"%char (b "{")). assumption.
Qed.

Lemma strpart_step c t p : c <> "\"%char -> c <> Q -> starts_with (b "${") (c :: t) = false ->
  starts_with (b "${") t = false -> strpart_aux (c :: t) p = strpart_aux t (adv c p).
Proof.
  intros N1 N2 B1 B2. cbn [strpart_aux].
  destruct (Ascii.eqb_spec c "\"); [congruence|]. destruct (Ascii.eqb_spec c """"); [unfold Q in N2; congruence|].
  destruct t as [|c2 t2]; [reflexivity|].
  assert (E1 : (Ascii.eqb c "$" && Ascii.eqb c2 "{")%bool = false).
  { change (b "${") with ["$"; "{"]%char in B1. cbn [starts_with] in B1.
    rewrite (Ascii.eqb_sym c "$"), (Ascii.eqb_sym c2 "{"). now rewrite andb_true_r in B1. }
  destruct t2 as [|c3 t3]; [now rewrite E1|].
  assert (E2 : (Ascii.eqb c2 "$" && Ascii.eqb c3 "{")%bool = false).
  { change (b "${") with ["$"; "{"]%char in B2. cbn [starts_with] in B2.
    rewrite (Ascii.eqb_sym c2 "$"), (Ascii.eqb_sym c3 "{"). now rewrite andb_true_r in B2. }
  rewrite <- andb_assoc, E2, andb_false_r, E1. reflexivity.
Qed.

(** the characters that escapeNixString always escapes *)
Definition special (c : ascii) : option ascii :=
  if Ascii.eqb c """" then Some """"%char
  else if Ascii.eqb c "\" then Some "\"%char
  else if Ascii.eqb c "010" then Some "n"%char
  else if Ascii.eqb c "013" then Some "r"%char
  else if Ascii.eqb c "009" then Some "t"%char
  else None.

Lemma esc_special c e s : special c = Some e -> escapeNixString (c :: s) = "\"%char :: e :: escapeNixString s /\ unescape ["\"%char; e] = [c].
Proof.
  unfold special. intros H.
  repeat match type of H with (if Ascii.eqb c ?d then _ else _) = _ =>
    destruct (Ascii.eqb_spec c d); [injection H as <-; subst; split; reflexivity|] end.
  discriminate.
Qed.
Lemma esc_dollar s : escapeNixString ("$"%char :: "{"%char :: s) = "\"%char :: "$"%char :: escapeNixString ("{"%char :: s).
Proof. reflexivity. Qed.
Lemma esc_plain c s : special c = None -> starts_with (b "${") (c :: s) = false -> escapeNixString (c :: s) = c :: escapeNixString s.
Proof.
  unfold special. cbn [escapeNixString]. intros H B.
  repeat match type of H with (if Ascii.eqb c ?d then _ else _) = _ =>
    destruct (Ascii.eqb_spec c d); [discriminate|] end.
  destruct (Ascii.eqb_spec c "$") as [->|N]; [|reflexivity]. destruct s as [|c2 s2]; [reflexivity|].
  destruct (Ascii.eqb_spec c2 "{") as [->|N2]; [discriminate|reflexivity].
Qed.
Lemma special_none c : special c = None -> c <> "\"%char /\ c <> Q.
Proof.
  unfold special, Q. intros H. split; intros ->; discriminate.
Qed.

Lemma strpart_esc s : exists w s', s = w ++ s' /\ escapeNixString s = w ++ escapeNixString s' /\
  (forall y p, strpart_aux (escapeNixString s ++ Q :: y) p = (advs w p, escapeNixString s' ++ Q :: y)) /\
  (match s with [] => True | c :: _ => special c = None -> starts_with (b "${") s = false -> w <> [] end).
Proof.
  induction s as [|c s IH].
  - exists [], []. repeat split.
  - destruct (special c) as [e|] eqn:E.
    + exists [], (c :: s). destruct (esc_special c e s E) as [-> _]. repeat split; congruence.
    + destruct (starts_with (b "${") (c :: s)) eqn:B.
      * exists [], (c :: s). apply starts_with_spec in B as [r B]. injection B as -> ->. repeat split; congruence.
      * rewrite (esc_plain c s E B). destruct (special_none c E) as [N1 N2].
        destruct IH as (w & s' & A1 & A2 & A3 & _).
        exists (c :: w), s'. split; [cbn; now rewrite A1|]. split; [cbn; now rewrite A2|]. split; [|discriminate].
        intros y p. cbn [app]. rewrite strpart_step; [apply A3|exact N1|exact N2| |apply esc_brace].
        pose proof (esc_brace (c :: s) y) as X. rewrite (esc_plain c s E B) in X. exact X.
Qed.

Lemma lexes_quote y : lexes PS_String (Q :: y) tok_dquote [Q] y.
Proof.
  intros c ds. cbn [lex_mode]. unfold lexString. cbn [lpeek rest]. change (Ascii.eqb Q """") with true. cbv iota.
  rewrite (consume1_spec Q y) by reflexivity. cbn [bind]. eexists _, _. split; [reflexivity|]. split; [reflexivity|].
  apply (slice_adv c [Q] y).
Qed.
Lemma lexes_escape e y : lexes PS_String ("\"%char :: e :: y) tok_string_escape ["\"%char; e] y.
Proof.
  intros c ds. cbn [lex_mode]. unfold lexString. cbn [lpeek rest]. change (Ascii.eqb "\" """") with false.
  change (Ascii.eqb "\" "\") with true. cbv iota.
  change (LexModel.consume 2 (Lst c ("\"%char :: e :: y) ds)) with (@Ok lst (Lst (adv e (adv "\" c)) y ds)). cbn [bind].
  eexists _, _. split; [reflexivity|]. split; [reflexivity|]. apply (slice_adv c ["\"%char; e] y).
Qed.
Lemma lexes_part c s : special c = None -> starts_with (b "${") (c :: s) = false ->
  exists w s', c :: s = w ++ s' /\ w <> [] /\ forall y,
    lexes PS_String (escapeNixString (c :: s) ++ Q :: y) tok_string_part w (escapeNixString s' ++ Q :: y).
Proof.
  intros E B. destruct (strpart_esc (c :: s)) as (w & s' & A1 & A2 & A3 & A4). specialize (A4 E B).
  exists w, s'. split; [exact A1|]. split; [exact A4|].
  intros y p ds. cbn [lex_mode]. unfold lexString. destruct (special_none c E) as [N1 N2].
  assert (LP : lpeek (Lst p (escapeNixString (c :: s) ++ Q :: y) ds) = Some c).
  { rewrite (esc_plain c s E B). reflexivity. }
  rewrite LP. destruct (Ascii.eqb_spec c """"); [unfold Q in N2; congruence|].
  destruct (Ascii.eqb_spec c "\"); [congruence|].
  unfold consumePrefix, peekPrefix. cbn [rest cur diags]. rewrite esc_brace. cbn [bind]. rewrite A3.
  eexists _, _. split; [reflexivity|]. split; [reflexivity|].
  rewrite A2, <- app_assoc. apply slice_adv.
Qed.

(** ** The parser *)

Definition reads (src : bytes) (k : nat) (q : nt) (ms : list pmode) (sy : list tkind) (ds : list diag) (r : bytes) (j : nat)
  (V : node -> Prop) (r' : bytes) (j' : nat) : Prop :=
  forall s, St ms sy ds r j s -> ends (run src k q) s (fun a s' =>
    exists n, a = Some n /\ V n /\ St ms sy ds r' j' s' /\ begun s').

Section Parts.
Variable src : bytes.

Lemma run_S k q : run src (S k) q = step src (run src k) q.
Proof. reflexivity. Qed.

Definition texts (fs : list bytes) : list (bytes + node) := map inl fs.

Lemma parts_end k cb acc ms sy ds y j s (QQ : option node -> pst -> Prop) : mode_of ms = PS_String -> begun s ->
  St ms sy ds (Q :: y) j s ->
  (forall i r s', St ms sy ds (Q :: y) (Nat.max j 1) s' -> plast s' = plast s -> QQ (Some (NParts i r (mergeFragments acc))) s') ->
  ends (run src (S k) (QParts cb acc)) s QQ.
Proof.
  intros M Bg S H. rewrite run_S. cbn [step]. unfold parseStringParts. apply ends_bind.
  eapply ends_peek0; [exact S|rewrite M; apply lexes_quote|]. intros t s1 K V S1 P1 _. rewrite K.
  assert (B1 : begun s1) by (unfold begun; now rewrite P1).
  apply ends_bind. apply ends_assertLast; [exact B1|].
  apply ends_bind. apply ends_toLast; [exact B1|]. intros r.
  apply ends_bind. eapply ends_fresh; [exact S1|]. intros i s2 S2 P2.
  apply ends_ret. apply H; [exact S2|congruence].
Qed.

Lemma parts_reads s0 : forall k cb acc ms sy ds y j s, mode_of ms = PS_String -> begun s ->
  St ms sy ds (escapeNixString s0 ++ Q :: y) j s -> j <= 1 -> List.length s0 < k ->
  ends (run src k (QParts cb acc)) s (fun a s' => exists i r fs, a = Some (NParts i r (mergeFragments (acc ++ texts fs))) /\
    List.concat fs = s0 /\ ~ In [] fs /\ St ms sy ds (Q :: y) 1 s' /\ begun s').
Proof.
  remember (List.length s0) as n eqn:Len. revert s0 Len.
  induction n as [n IH] using lt_wf_ind. intros s0 -> k cb acc ms sy ds y j s M Bg S J K.
  destruct k as [|k]; [lia|].
  destruct s0 as [|c s0].
  - eapply parts_end; [exact M|exact Bg|exact S|]. intros i r s' S' P'.
    exists i, r, []. rewrite app_nil_r. split; [reflexivity|]. split; [reflexivity|]. split; [auto|].
    split; [eapply St_more; [exact S'|lia]|unfold begun; now rewrite P'].
  - (* one more token *)
    assert (T : exists k0 v u s1, lexes PS_String (escapeNixString (c :: s0) ++ Q :: y) k0 v (escapeNixString s1 ++ Q :: y) /\
      c :: s0 = u ++ s1 /\ u <> [] /\ ((k0 = tok_string_part /\ v = u) \/ (k0 = tok_string_escape /\ unescape v = u))).
    { destruct (special c) as [e|] eqn:E.
      - destruct (esc_special c e s0 E) as [E1 E2]. exists tok_string_escape, ["\"%char; e], [c], s0. rewrite E1.
        split; [apply lexes_escape|]. split; [reflexivity|]. split; [discriminate|]. right. auto.
      - destruct (starts_with (b "${") (c :: s0)) eqn:B.
        + apply starts_with_spec in B as [r B]. injection B as -> ->.
          exists tok_string_escape, ["\"; "$"]%char, ["$"%char], ("{"%char :: r).
          split; [apply lexes_escape|]. split; [reflexivity|]. split; [discriminate|]. right. auto.
        + destruct (lexes_part c s0 E B) as (w & s' & A1 & A2 & A3). exists tok_string_part, w, w, s'.
          split; [apply A3|]. split; [exact A1|]. split; [exact A2|]. left. auto. }
    destruct T as (k0 & v & u & s1 & LX & CU & NU & KU).
    assert (LS : List.length s1 < List.length (c :: s0)).
    { rewrite CU, app_length. destruct u; [congruence|]. cbn. lia. }
    assert (Next : forall acc' s', acc' = acc ++ [inl u] -> St ms sy ds (escapeNixString s1 ++ Q :: y) (pred (Nat.max j 1)) s' -> begun s' ->
      ends (run src k (QParts cb acc')) s' (fun a s'0 => exists i r fs, a = Some (NParts i r (mergeFragments (acc ++ texts fs))) /\
        List.concat fs = c :: s0 /\ ~ In [] fs /\ St ms sy ds (Q :: y) 1 s'0 /\ begun s'0)).
    { intros acc' s' -> S' Bg'. eapply ends_mono.
      - eapply (IH (List.length s1)); [exact LS|reflexivity|exact M|exact Bg'|exact S'|lia|lia].
      - intros a s2 (i & r & fs & A & B & D & E & F). exists i, r, (u :: fs). split; [|split; [|split; [|split; [exact E|exact F]]]].
        + rewrite A. cbn [texts map]. now rewrite <- app_assoc.
        + cbn. now rewrite B.
        + intros [X|X]; [congruence|contradiction]. }
    rewrite run_S. cbn [step]. unfold parseStringParts. apply ends_bind.
    eapply ends_peek0; [exact S|rewrite M; exact LX|]. intros t st K1 V1 S1 P1 _. rewrite K1, V1.
    destruct KU as [[-> ->]|[-> U]].
    + apply ends_bind. eapply ends_consume; [exact S1|rewrite M; exact LX|]. intros s2 S2 B2.
      apply Next; [reflexivity|exact S2|exact B2].
    + apply ends_bind. eapply ends_consume; [exact S1|rewrite M; exact LX|]. intros s2 S2 B2.
      rewrite U. destruct u as [|u0 u]; [congruence|]. apply Next; [reflexivity|exact S2|exact B2].
Qed.

(** a string node whose only content is the text [x] *)
Definition is_text (x : bytes) (n : node) : Prop :=
  exists i r ip rp, n = NString i r (NParts ip rp (match x with [] => [] | _ => [inl x] end)).

Lemma merge_texts fs : ~ In [] fs -> mergeFragments (texts fs) = match List.concat fs with [] => [] | x => [inl x] end.
Proof.
  intros N. destruct fs as [|f fs]; [reflexivity|]. unfold mergeFragments, texts. cbn [map].
  match goal with |- context [existsb ?g ?l] => assert (E : existsb g l = false) end.
  { cbn. clear. induction fs; cbn; auto. }
  rewrite E. clear E.
  match goal with |- context [flat_map ?g ?l] => assert (F : flat_map g l = List.concat (f :: fs)) end.
  { cbn. f_equal. clear. induction fs; cbn; [reflexivity|]. now rewrite IHfs. }
  rewrite F.
  destruct (List.concat (f :: fs)) eqn:G; [|reflexivity]. cbn in G. apply app_eq_nil in G as [G _]. subst. exfalso. apply N. now left.
Qed.

Lemma string_reads x y k ms sy ds : mode_of ms = PS_Expr -> List.length x + 1 < k ->
  forall r j, lexes PS_Expr r tok_dquote [Q] (escapeNixString x ++ Q :: y) -> j <= 1 ->
  reads src k (QString false) ms sy ds r j (is_text x) y 0.
Proof.
  intros M K r j LX J s S. destruct k as [|k]; [lia|]. rewrite run_S. cbn [step]. unfold parseString.
  apply ends_bind. eapply ends_peek0; [exact S|rewrite M; exact LX|]. intros t s1 K1 V1 S1 P1 _.
  rewrite K1. cbn [tkind_beq passert]. apply ends_bind. apply ends_ret.
  apply ends_bind. eapply ends_consume; [exact S1|rewrite M; exact LX|]. intros s2 S2 B2.
  assert (S2' : St ms sy ds (escapeNixString x ++ Q :: y) 0 s2) by (eapply St_more; [exact S2|lia]).
  eapply ends_withSync; [exact S2'|]. intros s3 S3 P3.
  assert (B3 : begun s3) by (unfold begun; now rewrite P3).
  apply ends_bind. apply ends_assertLast; [exact B3|].
  eapply ends_withState; [exact S3|]. intros s4 S4 P4.
  assert (B4 : begun s4) by (unfold begun; now rewrite P4).
  assert (LS : exists k0 v r0, lexes PS_String (escapeNixString x ++ Q :: y) k0 v r0).
  { destruct x as [|c x0]; [eexists _, _, _; apply lexes_quote|].
    destruct (special c) as [e|] eqn:E.
    - destruct (esc_special c e x0 E) as [-> _]. eexists _, _, _. apply lexes_escape.
    - destruct (starts_with (b "${") (c :: x0)) eqn:B.
      + apply starts_with_spec in B as [r0 B]. injection B as -> ->. eexists _, _, _. apply lexes_escape.
      + destruct (lexes_part c x0 E B) as (w & s' & A1 & A2 & A3). eexists _, _, _. apply A3. }
  destruct LS as (k0 & v & r0 & LS).
  apply ends_bind. unfold lCur. apply ends_bind. eapply ends_peek0; [exact S4|exact LS|]. intros t5 s5 _ _ S5 P5 _. apply ends_ret.
  assert (B5 : begun s5) by (unfold begun; now rewrite P5).
  apply ends_bind. eapply ends_mono.
  { eapply (parts_reads x k (lcur (trange t5)) [] (PS_String :: ms)); [reflexivity|exact B5|exact S5|lia|lia]. }
  intros a s6 (i & rg & fs & -> & CC & NE & S6 & B6).
  apply ends_bind. eapply ends_expect; [exact S6|apply lexes_quote|]. intros t7 s7 K7 V7 S7 P7.
  apply ends_bind. eapply ends_consume; [exact S7|apply lexes_quote|]. intros s8 S8 B8.
  apply ends_bind. eapply ends_fresh; [exact S8|]. intros i9 s9 S9 P9.
  apply ends_ret. exists y. split; [eapply St_more; [exact S9|lia]|].
  intros s10 S10 P10. exists y, 0. split; [exact S10|].
  intros s11 S11 P11. eexists. split; [reflexivity|]. split; [|split; [exact S11|]].
  - cbn [app]. unfold is_text. rewrite merge_texts by exact NE. rewrite CC. eexists _, _, _, _. destruct x; reflexivity.
  - unfold begun. congruence.
Qed.
End Parts.
