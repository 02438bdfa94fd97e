(** Proofs about URIs. *)
From Verif Require Import Base LexModel LexProofs UriModel UriSpec.

(** ** characters *)
Lemma hex_roundtrip c :
  isHexDigit (hexdigit (code c / 16)) = true /\ isHexDigit (hexdigit (code c mod 16)) = true /\
  ascii_of_N (hexDigitValue (hexdigit (code c / 16)) * 16 + hexDigitValue (hexdigit (code c mod 16))) = c.
Proof.
  assert (H := all_ascii (fun c => isHexDigit (hexdigit (code c / 16)) && isHexDigit (hexdigit (code c mod 16)) &&
    Ascii.eqb (ascii_of_N (hexDigitValue (hexdigit (code c / 16)) * 16 + hexDigitValue (hexdigit (code c mod 16)))) c)).
  specialize (H ltac:(vm_compute; reflexivity) c). cbv beta in H.
  apply andb_true_iff in H as [H H3]. apply andb_true_iff in H as [H1 H2]. apply Ascii.eqb_eq in H3. auto.
Qed.

Lemma percent_escaped : shouldEscape percent = true.
Proof. reflexivity. Qed.

(** ** decoding *)
Definition escape (s : bytes) : bool :=
  match s with h :: l :: _ => isHexDigit h && isHexDigit l | _ => false end.
Fixpoint dec (s : bytes) : bytes :=
  match s with
  | [] => []
  | c :: r =>
      if Ascii.eqb c percent then
        match r with
        | h :: l :: r' =>
            if isHexDigit h && isHexDigit l then ascii_of_N (hexDigitValue h * 16 + hexDigitValue l) :: dec r'
            else c :: dec r
        | _ => c :: dec r
        end
      else c :: dec r
  end.

Lemma read_at_app pre c r : read_at (pre ++ c :: r) (List.length pre) = Ok c.
Proof. unfold read_at. rewrite nth_error_app2, Nat.sub_diag by lia. reflexivity. Qed.
Lemma read_at_app1 pre a c r : read_at (pre ++ a :: c :: r) (List.length pre + 1) = Ok c.
Proof. unfold read_at. rewrite nth_error_app2 by lia. replace (List.length pre + 1 - List.length pre) with 1 by lia. reflexivity. Qed.
Lemma read_at_app2 pre a a2 c r : read_at (pre ++ a :: a2 :: c :: r) (List.length pre + 2) = Ok c.
Proof. unfold read_at. rewrite nth_error_app2 by lia. replace (List.length pre + 2 - List.length pre) with 2 by lia. reflexivity. Qed.

Lemma decode_loop_dec n : forall r pre acc, List.length r < n ->
  decode_loop n (pre ++ r) (List.length pre) acc = Ok (rev acc ++ dec r).
Proof.
  induction n as [|n IH]; intros r pre acc L; [lia|]. cbn [decode_loop].
  destruct r as [|c r].
  - rewrite app_nil_r, Nat.eqb_refl. simpl. now rewrite app_nil_r.
  - assert (E1 : Nat.eqb (List.length pre) (List.length (pre ++ c :: r)) = false).
    { apply Nat.eqb_neq. rewrite app_length. simpl. lia. }
    rewrite E1, read_at_app. cbn [bind dec].
    assert (Step : forall ch, decode_loop n (pre ++ c :: r) (S (List.length pre)) (ch :: acc) = Ok (rev acc ++ ch :: dec r)).
    { intros ch. replace (pre ++ c :: r) with ((pre ++ [c]) ++ r) by (rewrite <- app_assoc; reflexivity).
      replace (S (List.length pre)) with (List.length (pre ++ [c])) by (rewrite app_length; simpl; lia).
      rewrite IH by (simpl in L; lia). simpl. rewrite <- app_assoc. reflexivity. }
    destruct (Ascii.eqb_spec c percent) as [->|Hc]; cbn [negb].
    2:{ apply Step. }
    destruct r as [|h [|l r]].
    + assert (E2 : Nat.ltb (List.length pre + 2) (List.length (pre ++ [percent])) = false).
      { apply Nat.ltb_ge. rewrite app_length. simpl. lia. }
      rewrite E2. cbn [bind]. apply Step.
    + assert (E2 : Nat.ltb (List.length pre + 2) (List.length (pre ++ [percent; h])) = false).
      { apply Nat.ltb_ge. rewrite app_length. simpl. lia. }
      rewrite E2. cbn [bind]. apply Step.
    + assert (E2 : Nat.ltb (List.length pre + 2) (List.length (pre ++ percent :: h :: l :: r)) = true).
      { apply Nat.ltb_lt. rewrite app_length. simpl. lia. }
      rewrite E2, read_at_app1. cbn [bind].
      destruct (isHexDigit h) eqn:Hh; [|cbn [bind andb]; apply Step].
      rewrite read_at_app2. cbn [bind].
      destruct (isHexDigit l) eqn:Hl; [|cbn [bind andb]; apply Step].
      cbn [andb]. rewrite ?read_at_app1. cbn [bind].
      replace (pre ++ percent :: h :: l :: r) with ((pre ++ [percent; h; l]) ++ r) by (rewrite <- app_assoc; reflexivity).
      replace (S (List.length pre + 2)) with (List.length (pre ++ [percent; h; l])) by (rewrite app_length; simpl; lia).
      rewrite IH by (simpl in L; lia). simpl. rewrite <- app_assoc. reflexivity.
Qed.

Lemma percentDecode_dec s : percentDecode s = Ok (dec s).
Proof. unfold percentDecode. apply (decode_loop_dec (S (List.length s)) s []). lia. Qed.

Lemma dec_encode_app s t : dec (percentEncode s ++ t) = s ++ dec t.
Proof.
  induction s as [|c s IH]; [reflexivity|]. cbn [percentEncode flat_map]. fold (percentEncode s).
  unfold encode_char. destruct (shouldEscape c) eqn:E.
  - destruct (hex_roundtrip c) as (H1 & H2 & H3). cbn [app dec]. rewrite Ascii.eqb_refl, H1, H2. cbn [andb].
    rewrite H3, IH. reflexivity.
  - cbn [app dec]. destruct (Ascii.eqb_spec c percent) as [->|]; [discriminate|]. rewrite IH. reflexivity.
Qed.

Lemma dec_encode s : dec (percentEncode s) = s.
Proof. rewrite <- (app_nil_r (percentEncode s)), dec_encode_app. apply app_nil_r. Qed.

Lemma encode_encoded s : encoded (percentEncode s).
Proof.
  induction s as [|c s IH]; [constructor|]. cbn [percentEncode flat_map]. fold (percentEncode s).
  unfold encode_char. destruct (shouldEscape c) eqn:E.
  - cbn [app]. apply encoded_escape; auto.
    + apply mem_char_spec. exact (all_ascii (fun c => mem_char (hexdigit (code c / 16)) (b "0123456789ABCDEF")) ltac:(vm_compute; reflexivity) c).
    + apply mem_char_spec. exact (all_ascii (fun c => mem_char (hexdigit (code c mod 16)) (b "0123456789ABCDEF")) ltac:(vm_compute; reflexivity) c).
  - cbn [app]. apply encoded_safe; auto.
    apply (class_of (fun c => negb (shouldEscape c)) safe_chars ltac:(vm_compute; reflexivity)). now rewrite E.
Qed.

(** hexadecimal digits, both ways *)
Lemma hex_value_of c : isHexDigit c = true -> hex_value c (N.to_nat (hexDigitValue c)).
Proof.
  intros H. unfold hex_value.
  assert (K := all_ascii (fun c => implb (isHexDigit c)
    (match nth_error hex_digits (N.to_nat (hexDigitValue c)) with Some d => Ascii.eqb d c | None => false end
     || match nth_error hex_lower (N.to_nat (hexDigitValue c)) with Some d => Ascii.eqb d c | None => false end))
    ltac:(vm_compute; reflexivity) c).
  cbv beta in K. rewrite H in K. cbn [implb] in K. apply orb_true_iff in K as [K|K]; [left|right];
    (destruct (nth_error _ _) as [d|]; [|discriminate]); apply Ascii.eqb_eq in K; now subst.
Qed.
Lemma hex_value_digit c v : hex_value c v -> isHexDigit c = true.
Proof.
  intros [H|H]; apply nth_error_In in H; apply mem_char_spec in H.
  - exact (impl_on_spec (fun c => mem_char c hex_digits) isHexDigit ltac:(vm_compute; reflexivity) c H).
  - exact (impl_on_spec (fun c => mem_char c hex_lower) isHexDigit ltac:(vm_compute; reflexivity) c H).
Qed.

Lemma dec_decodes s : decodes s (dec s).
Proof.
  remember (List.length s) as n eqn:L. revert s L.
  induction n as [n IH] using lt_wf_ind. intros s ->. destruct s as [|c r]; [constructor|]. cbn [dec].
  destruct (Ascii.eqb_spec c percent) as [->|Hc].
  2:{ apply decodes_plain; auto. eapply IH; [|reflexivity]. simpl; lia. }
  destruct r as [|h [|l r]].
  - apply decodes_stray; [intros; discriminate|constructor].
  - apply decodes_stray; [intros; discriminate|]. eapply IH; [|reflexivity]. simpl; lia.
  - destruct (isHexDigit h) eqn:Hh; [destruct (isHexDigit l) eqn:Hl|]; cbn [andb].
    + replace (ascii_of_N (hexDigitValue h * 16 + hexDigitValue l))
        with (ascii_of_nat (N.to_nat (hexDigitValue h) * 16 + N.to_nat (hexDigitValue l))).
      * apply decodes_escape; auto using hex_value_of. eapply IH; [|reflexivity]. simpl; lia.
      * unfold ascii_of_nat. f_equal. lia.
    + apply decodes_stray.
      * intros h' l' t vh vl E [_ K]. inversion E; subst. apply hex_value_digit in K. congruence.
      * eapply IH; [|reflexivity]. simpl; lia.
    + apply decodes_stray.
      * intros h' l' t vh vl E [K _]. inversion E; subst. apply hex_value_digit in K. congruence.
      * eapply IH; [|reflexivity]. simpl; lia.
Qed.

(** ** paths *)
Lemma until_slash_spec s : fst (until_slash s) ++ snd (until_slash s) = s /\ ~ In slash (fst (until_slash s)) /\
  (snd (until_slash s) = [] \/ exists r, snd (until_slash s) = slash :: r).
Proof.
  induction s as [|c r (E & N & H)]; [now auto|]. simpl. destruct (Ascii.eqb_spec c slash) as [->|Hc].
  - simpl. split; auto. split; auto. right. eauto.
  - destruct (until_slash r) as [x y]. simpl in *. split; [congruence|]. split; auto. intros [|]; auto.
Qed.

Lemma split_at_encode_auth a r : ~ In slash a -> split_at slash (percentEncode a ++ slash :: r) = Some (percentEncode a, r).
Proof.
  intros H. assert (K : ~ In slash (percentEncode a)).
  { induction a as [|c a IH]; [auto|]. cbn [percentEncode flat_map]. fold (percentEncode a). rewrite in_app_iff. intros [K|K].
    - unfold encode_char in K. destruct (shouldEscape c) eqn:E.
      + assert (F := all_ascii (fun c => negb (mem_char slash [percent; hexdigit (code c / 16); hexdigit (code c mod 16)]))
          ltac:(vm_compute; reflexivity) c). cbv beta in F. apply negb_true_iff in F.
        apply mem_char_spec in K. congruence.
      + destruct K as [->|[]]. apply H. now left.
    - apply IH; auto. intros Hi. apply H. now right. }
  revert K. generalize (percentEncode a) as w. induction w as [|c w IH]; intros K; simpl.
  - reflexivity.
  - destruct (Ascii.eqb_spec c slash) as [->|Hc]; [elim K; now left|]. rewrite IH; auto. intros Hi. apply K. now right.
Qed.

Lemma encode_slash r : percentEncode (slash :: r) = slash :: percentEncode r.
Proof. reflexivity. Qed.

(** parsing what toString wrote *)
Lemma parse_toString a r : ~ In slash a ->
  parseUri (toString (Uri (b "file") a (slash :: r))) = Ok (Some (Uri (b "file") a (slash :: r))).
Proof.
  intros Ha. unfold toString. cbn [u_scheme u_authority u_body].
  replace (percentEncode (b "file") ++ b ":" ++ _) with (b "file" ++ b ":" ++ b "//" ++ percentEncode a ++ slash :: percentEncode r).
  2:{ destruct a as [|x a]; [reflexivity|]. cbn [app b list_ascii_of_string percentEncode flat_map].
      rewrite <- ?app_assoc. reflexivity. }
  unfold parseUri. change (split_at ":" (b "file" ++ b ":" ++ b "//" ++ percentEncode a ++ slash :: percentEncode r))
    with (Some (b "file", b "//" ++ percentEncode a ++ slash :: percentEncode r)).
  cbv iota beta. change (percentDecode (b "file")) with (Ok (A:=bytes) (b "file")). cbn [bind].
  change (isValidScheme (b "file")) with true. cbn [negb].
  change (starts_with (b "//") (b "//" ++ percentEncode a ++ slash :: percentEncode r)) with true. cbv iota.
  change (skipn 2 (b "//" ++ percentEncode a ++ slash :: percentEncode r)) with (percentEncode a ++ slash :: percentEncode r).
  rewrite split_at_encode_auth by auto. rewrite percentDecode_dec, dec_encode. cbn [bind].
  rewrite <- encode_slash, percentDecode_dec, dec_encode. reflexivity.
Qed.

Lemma native_id p : native p = p <-> ~ In "\"%char p.
Proof.
  unfold native. induction p as [|c p IH]; [simpl; tauto|]. simpl.
  destruct (Ascii.eqb_spec c "\"%char) as [->|Hc].
  - split; [intros E; discriminate|intros H; elim H; now left].
  - split.
    + intros E [H|H]; [congruence|]. inversion E as [E1]. apply IH in E1. auto.
    + intros H. f_equal. apply IH. tauto.
Qed.

Lemma fileOfUri_created a r : ~ In slash a ->
  fileOfUri (toString (Uri (b "file") a (slash :: r))) = Ok (getAbsolutePath a (slash :: r)).
Proof. intros H. unfold fileOfUri. rewrite parse_toString by auto. reflexivity. Qed.

(** the two shapes of a POSIX path that starts with a slash *)
Lemma root_split_cases p : starts_with (b "/") p = true ->
  (exists n rest, n <> [] /\ ~ In slash n /\ (rest = [] \/ exists r, rest = slash :: r) /\ p = b "//" ++ n ++ rest /\
    root_split p = (b "//" ++ n, rest)) \/
  (root_split p = ([], p) /\ (forall n rest, n <> [] -> ~ In slash n -> p <> b "//" ++ n ++ rest)).
Proof.
  intros Hp. destruct p as [|c [|d [|e p]]].
  - discriminate.
  - right. split; auto. intros n rest Hn _ E. discriminate.
  - right. split; auto. intros n rest Hn _ E. destruct n; [now elim Hn|discriminate].
  - unfold root_split. destruct (Ascii.eqb_spec c slash) as [->|Hc]; cbn [andb].
    2:{ right. split; auto. intros n rest Hn _ E. inversion E. subst. now elim Hc. }
    destruct (Ascii.eqb_spec d slash) as [->|Hd]; cbn [andb].
    2:{ right. split; auto. intros n rest Hn _ E. inversion E. subst. now elim Hd. }
    destruct (Ascii.eqb_spec e slash) as [->|He]; cbn [andb negb].
    + right. split; auto. intros n rest Hn Hs E. destruct n as [|x n]; [now elim Hn|]. inversion E. subst. apply Hs. now left.
    + left. change (skipn 2 (slash :: slash :: e :: p)) with (e :: p).
      pose proof (until_slash_spec (e :: p)) as (E & N & H). destruct (until_slash (e :: p)) as [n rest] eqn:Eu. simpl in E, N, H.
      exists n, rest. split; [|split; [auto|split; [auto|split; [simpl; now rewrite E|reflexivity]]]].
      intros ->. simpl in E. subst rest. destruct H as [|[r H]]; [discriminate|]. inversion H. now elim He.
Qed.

Lemma drive_windows r : isWindowsPath r = true <-> exists c s, In c letters /\ r = c :: ":"%char :: s.
Proof.
  split.
  - destruct r as [|c [|d s]]; try discriminate. simpl. rewrite andb_true_iff, Ascii.eqb_eq. intros [H ->].
    exists c, s. split; auto. exact (class_of isAlpha letters ltac:(vm_compute; reflexivity) c H).
  - intros (c & s & H & ->). unfold isWindowsPath. rewrite Ascii.eqb_refl, andb_true_r. apply mem_char_spec in H.
    exact (impl_on_spec (fun c => mem_char c letters) isAlpha ltac:(vm_compute; reflexivity) c H).
Qed.

Lemma survives_iff p : starts_with (b "/") p = true ->
  (path_survives p <-> ~ In "\"%char p /\ ~ drive_like p /\ ~ net_only p).
Proof.
  intros Hp. unfold path_survives, uriOfFile, createFile.
  destruct (root_split_cases p Hp) as [(n & rest & Hn & Hs & Hr & -> & E)|[E Hno]]; rewrite E.
  - assert (Hw : isNetworkPath (b "//" ++ n) = true) by (destruct n; [now elim Hn|reflexivity]).
    rewrite Hw. change (skipn 2 (b "//" ++ n)) with n. destruct Hr as [->|[r ->]].
    + split.
      * intros (u & K & _). destruct n; [now elim Hn|]. simpl in K. discriminate.
      * intros (_ & _ & K). elim K. exists n. rewrite app_nil_r. auto.
    + assert (Hm : mkUri (b "file") n (slash :: r) = Ok (Uri (b "file") n (slash :: r))) by (destruct n; reflexivity).
      rewrite Hm. cbn [bind].
      assert (Hd : ~ drive_like (b "//" ++ n ++ slash :: r)).
      { intros (c & s & Hc & K). inversion K. subst c. simpl in Hc. repeat (destruct Hc as [Hc|Hc]; [discriminate|]). auto. }
      assert (Ho : ~ net_only (b "//" ++ n ++ slash :: r)).
      { intros (m & _ & Hm1 & K). simpl in K. inversion K as [K1]. apply Hm1. rewrite <- K1. apply in_app_iff. right. now left. }
      split.
      * intros (u & K1 & K2). inversion K1; subst u. rewrite fileOfUri_created in K2 by auto.
        split; auto. apply native_id. unfold getAbsolutePath in K2. cbn [starts_with b list_ascii_of_string negb] in K2.
        destruct n as [|x n]; [now elim Hn|]. change (Ok (Some (native (b "//" ++ (x :: n) ++ slash :: r))) = Ok (Some (b "//" ++ (x :: n) ++ slash :: r))) in K2.
        congruence.
      * intros (Hb & _ & _). eexists. split; [reflexivity|]. rewrite fileOfUri_created by auto.
        unfold getAbsolutePath. destruct n; [now elim Hn|]. cbn. f_equal. f_equal. apply native_id in Hb. exact Hb.
  - cbn [isNetworkPath isWindowsPath]. cbv iota. rewrite app_nil_l.
    destruct p as [|s p]; [discriminate|]. assert (s = slash) as ->.
    { cbn [starts_with b list_ascii_of_string] in Hp. rewrite andb_true_r in Hp. apply Ascii.eqb_eq in Hp. now rewrite <- Hp. }
    change (mkUri (b "file") [] (slash :: p)) with (Ok (Uri (b "file") [] (slash :: p))). cbn [bind].
    assert (Ho : ~ net_only (slash :: p)).
    { intros (m & Hm & Hm1 & K). apply (Hno m [] Hm Hm1). rewrite app_nil_r. auto. }
    assert (Hd : drive_like (slash :: p) <-> isWindowsPath p = true).
    { rewrite drive_windows. split; intros (c & r & Hc & K); exists c, r; split; auto; [now inversion K|now rewrite K]. }
    split.
    + intros (u & K1 & K2). inversion K1; subst u. rewrite fileOfUri_created in K2 by auto.
      unfold getAbsolutePath in K2. simpl in K2. destruct (isWindowsPath p) eqn:Ew.
      * assert (K3 : native p = slash :: p) by congruence. exfalso.
        apply (f_equal (@List.length ascii)) in K3. unfold native in K3. rewrite map_length in K3. simpl in K3. lia.
      * split; [|split; auto; rewrite Hd; discriminate]. apply native_id. change (Ok (Some (native (slash :: p))) = Ok (Some (slash :: p))) in K2. congruence.
    + intros (Hb & Hnd & _). eexists. split; [reflexivity|]. rewrite fileOfUri_created by auto.
      unfold getAbsolutePath. simpl. destruct (isWindowsPath p) eqn:Ew; [elim Hnd; now apply Hd|].
      apply native_id in Hb. change (Ok (Some (native (slash :: p))) = Ok (Some (slash :: p))). now rewrite Hb.
Qed.

(** ** opening *)
Lemma parseUri_total s : exists r, parseUri s = Ok r.
Proof.
  unfold parseUri. destruct (split_at ":" s) as [[sch rest]|]; [|eauto]. rewrite percentDecode_dec. cbn [bind].
  destruct (negb (isValidScheme (dec sch))); [eauto|].
  destruct (starts_with (b "//") rest); [|rewrite percentDecode_dec; cbn [bind]; eauto].
  destruct (split_at slash (skipn 2 rest)) as [[a body]|]; rewrite !percentDecode_dec; cbn [bind]; eauto.
Qed.

Lemma fileOfUri_total s : exists r, fileOfUri s = Ok r.
Proof.
  unfold fileOfUri. destruct (parseUri_total s) as [[u|] ->]; cbn [bind]; [|eauto].
  destruct (bytes_eqb _ _); eauto.
Qed.

Lemma openUri_ok s p : fileOfUri s = Ok (Some p) -> starts_with (b "/") p = true -> ~ net_only p ->
  exists u, openUri s = Ok (Some u).
Proof.
  intros E Hp Hn. unfold openUri. rewrite E. cbn [bind]. unfold canonicalize, is_absolute, uriOfFile, createFile.
  destruct (root_split_cases p Hp) as [(n & rest & Hne & Hs & Hr & -> & Es)|[Es Hno]]; rewrite Es.
  - destruct Hr as [->|[r ->]].
    + elim Hn. exists n. rewrite app_nil_r. auto.
    + cbn [snd]. change (starts_with (b "/") (slash :: r)) with true. cbn [bind]. rewrite Es.
      assert (Hw : isNetworkPath (b "//" ++ n) = true) by (destruct n; [now elim Hne|reflexivity]).
      rewrite Hw. destruct n; [now elim Hne|]. cbn. eauto.
  - cbn [snd]. rewrite Hp. cbn [bind]. rewrite Es. cbn. eauto.
Qed.
