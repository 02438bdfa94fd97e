(** Proofs about framing, dispatch and outgoing calls. *)
From Coq Require Import Sorted.
From Verif Require Import Base LexModel LexProofs ConnModel ConnSpec.

(** ** Decimal numbers *)
Definition is_digit_char (c : ascii) : bool := (48 <=? code c)%N && (code c <=? 57)%N.
Definition dval (c : ascii) : N := (code c - 48)%N.
Definition value_of (ds : bytes) : N := fold_left (fun a c => a * 10 + dval c)%N ds 0%N.

Lemma code_digit : forall n, (n < 10)%N -> code (digit n) = (48 + n)%N.
Proof.
  intros n H. unfold code, digit. rewrite N_ascii_embedding; lia.
Qed.

Lemma fold_value : forall ds a, fold_left (fun a c => a * 10 + dval c)%N ds a = (a * 10 ^ N.of_nat (List.length ds) + value_of ds)%N.
Proof.
  unfold value_of. induction ds as [|c ds IH]; intros a.
  - cbn [fold_left List.length]. change (10 ^ N.of_nat 0)%N with 1%N. lia.
  - cbn [fold_left List.length]. rewrite IH, (IH (0 * 10 + dval c)%N), Nat2N.inj_succ, N.pow_succ_r'. lia.
Qed.

Lemma value_app : forall x y, value_of (x ++ y) = (value_of x * 10 ^ N.of_nat (List.length y) + value_of y)%N.
Proof. intros. unfold value_of at 1. rewrite fold_left_app, fold_value. reflexivity. Qed.

Definition good_digits (n : N) (ds : bytes) : Prop :=
  ds <> [] /\ forallb is_digit_char ds = true /\ value_of ds = n /\ (forall r, ds = "0"%char :: r -> r = []).

Lemma decimal_go_acc : forall fuel n acc, decimal_go fuel n acc = decimal_go fuel n [] ++ acc.
Proof.
  induction fuel; intros n acc; cbn [decimal_go]; auto.
  destruct (n <? 10)%N; auto. rewrite IHfuel, (IHfuel _ [_]), <- app_assoc. reflexivity.
Qed.

Lemma digit_ok : forall n, (n < 10)%N -> is_digit_char (digit n) = true /\ dval (digit n) = n.
Proof.
  intros n H. unfold is_digit_char, dval. rewrite code_digit by auto.
  rewrite (proj2 (N.leb_le 48 (48 + n)%N)), (proj2 (N.leb_le (48 + n)%N 57)) by lia. split; [reflexivity|lia].
Qed.

Lemma decimal_go_good : forall fuel n, (n < 2 ^ N.of_nat fuel)%N -> good_digits n (decimal_go (S fuel) n []).
Proof.
  induction fuel; intros n H.
  - change (2 ^ N.of_nat 0)%N with 1%N in H. assert (n = 0)%N by lia. subst. vm_compute.
    split; [discriminate|]. split; [reflexivity|]. split; [reflexivity|]. intros r E. now injection E.
  - assert (Hm : (n mod 10 < 10)%N) by (apply N.mod_lt; lia).
    destruct (digit_ok _ Hm) as [D1 D2].
    cbn [decimal_go]. destruct (N.ltb_spec n 10) as [Hl|Hl].
    + split; [discriminate|]. split; [cbn [forallb]; now rewrite D1|]. split.
      * unfold value_of. cbn [fold_left]. rewrite D2, N.mod_small by lia. lia.
      * intros r E. now injection E.
    + change (good_digits n (decimal_go (S fuel) (n / 10) [digit (n mod 10)])). rewrite decimal_go_acc.
      assert (Hd : (n / 10 < 2 ^ N.of_nat fuel)%N).
      { rewrite Nat2N.inj_succ, N.pow_succ_r' in H. apply N.div_lt_upper_bound; lia. }
      specialize (IHfuel _ Hd). destruct IHfuel as (A & B & C & D).
      pose proof (N.div_mod n 10 ltac:(lia)) as E.
      split; [|split; [|split]].
      * intros F. now apply app_eq_nil in F.
      * rewrite forallb_app, B. cbn [forallb]. now rewrite D1.
      * rewrite value_app, C. unfold value_of. cbn [fold_left List.length]. rewrite D2.
        change (10 ^ N.of_nat 1)%N with 10%N. lia.
      * intros r F. destruct (decimal_go (S fuel) (n / 10) []) as [|c ds] eqn:G; [congruence|].
        cbn [app] in F. injection F as F1 F2. subst c. specialize (D ds eq_refl). subst ds.
        change (value_of ["0"%char]) with 0%N in C. assert (1 <= n / 10)%N by (apply N.div_le_lower_bound; lia). lia.
Qed.

Lemma decimal_good : forall n, good_digits n (decimal_of n).
Proof.
  intros n. unfold decimal_of. apply decimal_go_good. rewrite N2Nat.id. apply N.size_gt.
Qed.

Definition digit_facts (c : ascii) : bool :=
  implb (is_digit_char c)
    (match char_value c with Some v => N.eqb v (dval c) | None => false end && (dval c <? 10)%N
     && negb (is_space c) && negb (Ascii.eqb c "010") && negb (existsb (Ascii.eqb c) (b "xXbBo"))).
Lemma digit_fact : forall c, is_digit_char c = true ->
  char_value c = Some (dval c) /\ (dval c < 10)%N /\ is_space c = false /\ Ascii.eqb c "010" = false /\
  existsb (Ascii.eqb c) (b "xXbBo") = false.
Proof.
  intros c H. pose proof (all_ascii digit_facts ltac:(vm_compute; reflexivity) c) as F.
  unfold digit_facts in F. rewrite H in F. cbn [implb] in F.
  rewrite !andb_true_iff, !negb_true_iff in F. destruct F as ((((A & B) & C) & D) & E).
  destruct (char_value c); [|discriminate]. apply N.eqb_eq in A. apply N.ltb_lt in B. subst. auto.
Qed.

Lemma consume_digits_ok : forall ds acc, forallb is_digit_char ds = true ->
  (fold_left (fun a c => a * 10 + dval c) ds acc < two64)%N ->
  consume_digits 10 ds acc = (fold_left (fun a c => a * 10 + dval c)%N ds acc, false).
Proof.
  induction ds as [|c ds IH]; intros acc H L; cbn [fold_left consume_digits]; auto.
  cbn [forallb] in H. apply andb_true_iff in H. destruct H as [H1 H2].
  destruct (digit_fact _ H1) as (E & Lt & _). rewrite E, (proj2 (N.ltb_lt _ _) Lt).
  cbn [fold_left] in L.
  assert (L' : (acc * 10 + dval c < two64)%N).
  { rewrite fold_value in L. assert (1 <= 10 ^ N.of_nat (List.length ds))%N.
    { change 1%N with (10 ^ 0)%N. apply N.pow_le_mono_r; lia. } nia. }
  cbv zeta. rewrite N.mod_small by auto.
  assert (G : ((acc * 10 + dval c) / 10 = acc)%N).
  { symmetry. apply (N.div_unique _ 10 acc (dval c)); lia. }
  rewrite G, N.ltb_irrefl. now apply IH.
Qed.

Lemma ltrim_keep : forall c s, is_space c = false -> ltrim (c :: s) = c :: s.
Proof. intros c s H. cbn [ltrim]. now rewrite H. Qed.

Lemma trim_digits : forall ds, ds <> [] -> forallb is_digit_char ds = true -> trim (ds ++ ["013"%char]) = ds.
Proof.
  intros ds N H. unfold trim.
  assert (A : ltrim (ds ++ ["013"%char]) = ds ++ ["013"%char]).
  { destruct ds as [|c ds]; [congruence|]. cbn [forallb] in H. apply andb_true_iff in H.
    destruct (digit_fact _ (proj1 H)) as (_ & _ & S & _). cbn [app]. now apply ltrim_keep. }
  rewrite A, rev_app_distr. cbn [rev app]. change (ltrim ("013"%char :: rev ds)) with (ltrim (rev ds)).
  destruct (rev ds) as [|c r] eqn:E.
  - apply (f_equal (@rev _)) in E. rewrite rev_involutive in E. now subst.
  - rewrite ltrim_keep; [rewrite <- E; apply rev_involutive|].
    assert (In c ds) by (apply in_rev; rewrite E; now left).
    rewrite forallb_forall in H. now destruct (digit_fact _ (H _ H0)) as (_ & _ & S & _).
Qed.

Lemma getContentLength_decimal : forall n old, (n < two64)%N -> getContentLength (decimal_of n) old = n.
Proof.
  intros n old L. destruct (decimal_good n) as (A & B & C & D).
  assert (G : auto_radix (decimal_of n) = (10%N, decimal_of n)).
  { destruct (decimal_of n) as [|c ds] eqn:E; [congruence|].
    unfold auto_radix. destruct c as [[] [] [] [] [] [] [] []]; try reflexivity.
    destruct ds as [|d ds]; [reflexivity|]. specialize (D _ eq_refl). discriminate. }
  unfold getContentLength. rewrite G. destruct (decimal_of n) as [|c ds] eqn:E; [congruence|].
  rewrite <- E in *. rewrite consume_digits_ok; auto; fold (value_of (decimal_of n)); now rewrite C.
Qed.

(** ** Reading *)
Definition no_lf (s : bytes) : Prop := forallb (fun c => negb (Ascii.eqb c "010")) s = true.

Lemma readLine_inv : forall evs left acc line left' evs',
  readLine evs left acc = Got line left' evs' ->
  exists w, left = w ++ "010"%char :: left' /\ line = rev acc ++ w /\ no_lf w /\ exists k, evs = k ++ evs'.
Proof.
  induction evs as [|e evs IH]; intros left acc line left' evs' H; cbn [readLine] in H; [discriminate|].
  destruct e; try discriminate.
  - destruct left as [|c left]; [discriminate|]. destruct (Ascii.eqb c "010") eqn:E.
    + injection H as <- <- <-. apply Ascii.eqb_eq in E. subst c. exists []. rewrite app_nil_r.
      repeat split; auto. now exists [Data k].
    + destruct (IH _ _ _ _ _ H) as (w & A & B & C & K & D). exists (c :: w). subst left line evs.
      repeat split.
      * cbn [rev]. now rewrite <- app_assoc.
      * unfold no_lf in *. cbn [forallb]. now rewrite E, C.
      * now exists (Data k :: K).
  - destruct (IH _ _ _ _ _ H) as (w & A & B & C & K & D). exists w. subst. repeat split; auto.
    now exists (Timeout :: K).
  - destruct (IH _ _ _ _ _ H) as (w & A & B & C & K & D). exists w. subst. repeat split; auto.
    now exists (Intr :: K).
Qed.

Lemma no_lf_split : forall w x l y, no_lf w -> no_lf l ->
  w ++ "010"%char :: x = l ++ "010"%char :: y -> w = l /\ x = y.
Proof.
  unfold no_lf. induction w as [|c w IH]; intros x l y Hw Hl E; destruct l as [|d l].
  - now injection E.
  - cbn [app] in E. injection E as E1 E2. subst d. discriminate.
  - cbn [app] in E. injection E as E1 E2. subst c. discriminate.
  - cbn [app] in E. injection E as E1 E2. subst d. cbn [forallb] in Hw, Hl.
    apply andb_true_iff in Hw, Hl. destruct (IH _ _ _ (proj2 Hw) (proj2 Hl) E2). now subst.
Qed.

(** The reader sees an initial part [left] of a line, a line feed and [rest]. *)
Lemma readLine_part : forall evs left t l rest line left' evs',
  no_lf l -> left ++ t = l ++ "010"%char :: rest -> readLine evs left [] = Got line left' evs' ->
  line = l /\ left' ++ t = rest.
Proof.
  intros evs left t l rest line left' evs' N E H. destruct (readLine_inv _ _ _ _ _ _ H) as (w & A & B & C & _).
  cbn [rev app] in B. subst line left. rewrite <- app_assoc in E. cbn [app] in E.
  now destruct (no_lf_split _ _ _ _ C N E).
Qed.

Definition ndata (evs : list ev) : nat := List.length (filter is_data evs).

Lemma readLine_full : forall l evs acc rest,
  Forall undisturbed evs -> no_lf l -> List.length l + 1 <= ndata evs ->
  exists evs', readLine evs (l ++ "010"%char :: rest) acc = Got (rev acc ++ l) rest evs' /\
    Forall undisturbed evs' /\ ndata evs' + List.length l + 1 = ndata evs.
Proof.
  intros l evs. revert l. induction evs as [|e evs IH]; intros l acc rest U N L.
  - cbn in L. lia.
  - inversion U as [|? ? U1 U2]; subst. destruct e; try contradiction; unfold ndata in *;
      cbn [filter is_data List.length readLine] in *.
    + destruct l as [|c l]; cbn [app].
      * rewrite Ascii.eqb_refl, app_nil_r. exists evs. split; auto. split; auto. cbn [List.length]. lia.
      * unfold no_lf in N. cbn [forallb] in N. apply andb_true_iff in N. destruct N as [N1 N2].
        apply negb_true_iff in N1. rewrite N1. cbn [List.length] in L.
        destruct (IH l (c :: acc) rest U2 N2 ltac:(lia)) as (evs' & A & B & C).
        exists evs'. rewrite A. cbn [rev]. rewrite <- app_assoc. split; [reflexivity|]. split; auto.
        cbn [List.length]. lia.
    + destruct (IH l acc rest U2 N ltac:(lia)) as (evs' & A & B & C). exists evs'. split; auto.
Qed.

Lemma readBody_part : forall evs left t p rest buf pos m left' evs',
  Forall (fun e => e <> Intr) evs -> pos <= List.length p -> List.length buf = List.length p ->
  firstn pos buf = firstn pos p -> left ++ t = skipn pos p ++ rest ->
  readBody evs left (List.length p) buf pos = Got m left' evs' ->
  m = p /\ left' ++ t = rest.
Proof.
  induction evs as [|e evs IH]; intros left t p rest buf pos m left' evs' NI L LB F E H.
  - cbn [readBody] in H. destruct (Nat.leb_spec (List.length p) pos); [|discriminate].
    assert (pos = List.length p) by lia. subst pos. injection H as <- <- <-.
    rewrite firstn_all in F. rewrite <- LB, firstn_all in F. rewrite skipn_all in E. now subst.
  - cbn [readBody] in H. destruct (Nat.leb_spec (List.length p) pos) as [G|G].
    { assert (pos = List.length p) by lia. subst pos. injection H as <- <- <-.
      rewrite firstn_all in F. rewrite <- LB, firstn_all in F. rewrite skipn_all in E. now subst. }
    inversion NI as [|? ? N1 N2]; subst. destruct e; try (exact (IH _ _ _ _ _ _ _ _ _ N2 L LB F E H)); try congruence.
    destruct left as [|c left0]; [discriminate|]. set (left := c :: left0) in *.
    set (n := Nat.min (Nat.min (Nat.max 1 k) (List.length p - pos)) (List.length left)) in *.
    assert (Hn : n <= List.length p - pos /\ n <= List.length left /\ 1 <= n).
    { unfold n. cbn [List.length left]. unfold left. cbn [List.length]. lia. }
    assert (FL : firstn n left = firstn n (skipn pos p)).
    { assert (X : firstn n (left ++ t) = firstn n (skipn pos p ++ rest)) by now rewrite E.
      rewrite !firstn_app in X. rewrite skipn_length in X.
      replace (n - List.length left) with 0 in X by lia. replace (n - (List.length p - pos)) with 0 in X by lia.
      cbn [firstn] in X. now rewrite !app_nil_r in X. }
    apply (IH _ t p rest) in H; auto; try lia.
    + rewrite !app_length, firstn_length, firstn_length, skipn_length. lia.
    + assert (X : List.length (firstn pos buf ++ firstn n left) = pos + n).
      { rewrite app_length, !firstn_length. lia. }
      rewrite app_assoc. rewrite <- X at 1. rewrite firstn_app, Nat.sub_diag, firstn_all, firstn_O, app_nil_r.
      rewrite F, FL. rewrite <- (firstn_skipn pos p) at 3. rewrite firstn_app, firstn_length.
      replace (pos + n - Nat.min pos (List.length p)) with n by lia.
      rewrite (firstn_all2 (n := pos + n) (firstn pos p)); [reflexivity|]. rewrite firstn_length. lia.
    + assert (X : skipn n (left ++ t) = skipn n (skipn pos p ++ rest)) by now rewrite E.
      rewrite !skipn_app in X. rewrite skipn_length in X.
      replace (n - List.length left) with 0 in X by lia. replace (n - (List.length p - pos)) with 0 in X by lia.
      rewrite !skipn_O in X. rewrite X. f_equal.
      rewrite <- (firstn_skipn pos p) at 1. 
      assert (Y : forall (a q : nat) (l : bytes), skipn a (skipn q l) = skipn (q + a) l).
      { intros a q. induction q; intros l; [reflexivity|]. destruct l; [now rewrite !skipn_nil|]. cbn [skipn Nat.add]. auto. }
      rewrite firstn_skipn. apply Y.
Qed.

Lemma readBody_total : forall evs left len buf pos,
  Forall undisturbed evs -> len - pos <= List.length left -> len - pos <= ndata evs ->
  exists m left' evs', readBody evs left len buf pos = Got m left' evs' /\ Forall undisturbed evs' /\
    ndata evs <= ndata evs' + (len - pos).
Proof.
  induction evs as [|e evs IH]; intros left len buf pos U L D; cbn [readBody];
    (destruct (Nat.leb_spec len pos) as [G|G]; [do 3 eexists; split; [reflexivity|split; [assumption|lia]]|]).
  - cbn in D. lia.
  - inversion U as [|? ? U1 U2]; subst. unfold ndata in *. destruct e; try contradiction; cbn [filter is_data List.length] in *.
    + destruct left as [|c left0]; [cbn [List.length] in L; lia|]. set (left := c :: left0) in *.
      set (n := Nat.min (Nat.min (Nat.max 1 k) (len - pos)) (List.length left)).
      assert (1 <= n /\ n <= len - pos) by (unfold n, left; cbn [List.length]; lia).
      destruct (IH (skipn n left) len (firstn pos buf ++ firstn n left ++ skipn (pos + n) buf) (pos + n) U2) as (m & l' & e' & A & B & C).
      * rewrite skipn_length. lia.
      * lia.
      * exists m, l', e'. split; [exact A|]. split; auto. lia.
    + destruct (IH left len buf pos U2 L D) as (m & l' & e' & A & B & C). exists m, l', e'. auto.
Qed.

(** ** Frames *)
Definition header_line (p : bytes) : bytes :=
  b "Content-Length: " ++ decimal_of (N.of_nat (List.length p)) ++ ["013"%char].

Lemma frame_lines : forall p rest,
  frame p ++ rest = header_line p ++ "010"%char :: (["013"%char] ++ "010"%char :: (p ++ rest)).
Proof.
  intros. unfold frame, header_line, CRLF. rewrite <- !app_assoc. reflexivity.
Qed.

Lemma header_no_lf : forall p, no_lf (header_line p).
Proof.
  intros p. unfold no_lf, header_line. rewrite !forallb_app.
  destruct (decimal_good (N.of_nat (List.length p))) as (_ & B & _).
  assert (H : forallb (fun c => negb (Ascii.eqb c "010")) (decimal_of (N.of_nat (List.length p))) = true).
  { rewrite forallb_forall in *. intros c Hc. destruct (digit_fact _ (B _ Hc)) as (_ & _ & _ & D & _). now rewrite D. }
  now rewrite H.
Qed.

Lemma header_starts : forall p, starts_with (b "Content-Length: ") (header_line p) = true.
Proof. reflexivity. Qed.

Lemma header_rest : forall p old, fits p ->
  getContentLength (trim (skipn (List.length (b "Content-Length: ")) (header_line p))) old = N.of_nat (List.length p).
Proof.
  intros p old F. unfold header_line.
  replace (skipn _ _) with (decimal_of (N.of_nat (List.length p)) ++ ["013"%char]) by reflexivity.
  destruct (decimal_good (N.of_nat (List.length p))) as (A & B & _). rewrite trim_digits by auto.
  apply getContentLength_decimal. exact F.
Qed.

Lemma readLine_no_intr : forall evs left acc line left' evs',
  Forall (fun e => e <> Intr) evs -> readLine evs left acc = Got line left' evs' -> Forall (fun e => e <> Intr) evs'.
Proof.
  intros. destruct (readLine_inv _ _ _ _ _ _ H0) as (_ & _ & _ & _ & k & ->). now apply Forall_app in H.
Qed.

Lemma readHeaders_S : forall fuel evs left len, readHeaders (S fuel) evs left len =
  match readLine evs left [] with
  | Blocked => Blocked
  | Eof => Eof
  | Got line left' evs' =>
      if starts_with (b "Content-Length: ") line
      then readHeaders fuel evs' left' (getContentLength (trim (skipn (List.length (b "Content-Length: ")) line)) len)
      else match trim line with [] => Got len left' evs' | _ => readHeaders fuel evs' left' len end
  end.
Proof. reflexivity. Qed.

Lemma readHeaders_part : forall fuel evs left t p rest n left' evs',
  fits p -> Forall (fun e => e <> Intr) evs -> left ++ t = frame p ++ rest ->
  readHeaders fuel evs left 0%N = Got n left' evs' ->
  n = N.of_nat (List.length p) /\ left' ++ t = p ++ rest /\ Forall (fun e => e <> Intr) evs'.
Proof.
  intros fuel evs left t p rest n left' evs' F NI E H. rewrite frame_lines in E.
  destruct fuel; [discriminate|]. rewrite readHeaders_S in H.
  destruct (readLine evs left []) as [|line l1 e1|] eqn:R; try discriminate.
  destruct (readLine_part _ _ _ _ _ _ _ _ (header_no_lf p) E R) as [-> E1].
  rewrite header_starts, header_rest in H by auto.
  pose proof (readLine_no_intr _ _ _ _ _ _ NI R) as NI1.
  destruct fuel; [discriminate|]. rewrite readHeaders_S in H.
  destruct (readLine e1 l1 []) as [|line2 l2 e2|] eqn:R2; try discriminate.
  destruct (fun N => readLine_part _ _ _ _ _ _ _ _ N E1 R2) as [-> E2]; [reflexivity|].
  cbn [starts_with b list_ascii_of_string] in H. change (trim ["013"%char]) with (@nil ascii) in H. cbv match in H.
  change (Ascii.eqb "C" "013" && _) with false in H. cbv match in H. injection H as <- <- <-.
  split; auto. split; auto. exact (readLine_no_intr _ _ _ _ _ _ NI1 R2).
Qed.

Lemma readBody_no_intr : forall evs left len buf pos m left' evs',
  Forall (fun e => e <> Intr) evs -> readBody evs left len buf pos = Got m left' evs' ->
  Forall (fun e => e <> Intr) evs'.
Proof.
  induction evs as [|e evs IH]; intros left len buf pos m left' evs' N H; cbn [readBody] in H;
    (destruct (Nat.leb len pos); [injection H as <- <- <-; auto|]); [discriminate|].
  inversion N; subst. destruct e; eauto; try congruence. destruct left; [discriminate|eauto].
Qed.

Lemma readMessage_part : forall evs left t p rest m left' evs',
  fits p -> Forall (fun e => e <> Intr) evs -> left ++ t = frame p ++ rest ->
  readMessage evs left = Got m left' evs' ->
  m = p /\ left' ++ t = rest /\ Forall (fun e => e <> Intr) evs'.
Proof.
  intros evs left t p rest m left' evs' F NI E H. unfold readMessage in H.
  destruct (readHeaders _ evs left 0%N) as [|n l1 e1|] eqn:R; try discriminate.
  destruct (readHeaders_part _ _ _ _ _ _ _ _ _ F NI E R) as (-> & E1 & NI1).
  rewrite Nat2N.id in H.
  destruct (readBody_part e1 l1 t p rest _ 0 m left' evs' NI1 (Nat.le_0_l _) (repeat_length _ _) eq_refl E1 H) as [-> E2].
  split; auto. split; auto. exact (readBody_no_intr _ _ _ _ _ _ _ _ NI1 H).
Qed.

(** an empty stream holds no message *)
Lemma readMessage_nil : forall evs m left' evs', readMessage evs [] <> Got m left' evs'.
Proof.
  intros evs m left' evs' H. unfold readMessage in H. rewrite readHeaders_S in H.
  destruct (readLine evs [] []) as [|line l1 e1|] eqn:R; try discriminate.
  destruct (readLine_inv _ _ _ _ _ _ R) as (w & A & _). destruct w; discriminate.
Qed.

Lemma readAll_part : forall fuel evs left t ms,
  Forall fits ms -> Forall (fun e => e <> Intr) evs -> left ++ t = stream ms ->
  initial_part (fst (readAll fuel evs left)) ms.
Proof.
  induction fuel; intros evs left t ms F NI E; cbn [readAll].
  - now exists ms.
  - destruct (readMessage evs left) as [|m l1 e1|] eqn:R; try (now exists ms).
    destruct ms as [|p ms].
    { cbn in E. apply app_eq_nil in E. destruct E as [-> ->]. now apply readMessage_nil in R. }
    inversion F; subst. change (stream (p :: ms)) with (frame p ++ stream ms) in E.
    destruct (readMessage_part _ _ _ _ _ _ _ _ H1 NI E R) as (-> & E1 & NI1).
    destruct (IHfuel e1 l1 t ms H2 NI1 E1) as [z Z].
    destruct (readAll fuel e1 l1) as [ms' x]. cbn [fst] in *. exists z. cbn [app]. now rewrite Z.
Qed.

Lemma readMessage_full : forall evs p rest,
  fits p -> Forall undisturbed evs -> List.length (frame p) <= ndata evs ->
  exists evs', readMessage evs (frame p ++ rest) = Got p rest evs' /\ Forall undisturbed evs' /\
    ndata evs <= ndata evs' + List.length (frame p).
Proof.
  intros evs p rest F U L.
  assert (LF : List.length (frame p) = List.length (header_line p) + 1 + 2 + List.length p).
  { pose proof (frame_lines p []) as X. rewrite app_nil_r in X. rewrite X, !app_length. cbn [List.length].
    rewrite app_length. cbn [List.length]. rewrite app_length. cbn [List.length]. lia. }
  destruct (readLine_full (header_line p) evs [] (["013"%char] ++ "010"%char :: (p ++ rest)) U (header_no_lf p) ltac:(lia))
    as (e1 & R1 & U1 & D1).
  destruct (readLine_full ["013"%char] e1 [] (p ++ rest) U1 eq_refl ltac:(cbn [List.length]; lia))
    as (e2 & R2 & U2 & D2). cbn [List.length] in D2.
  destruct (readBody_total e2 (p ++ rest) (List.length p) (repeat "000"%char (List.length p)) 0 U2)
    as (m & l' & e3 & R3 & U3 & D3); [rewrite app_length; lia|lia|].
  assert (NI : forall l, Forall undisturbed l -> Forall (fun e => e <> Intr) l).
  { intros l. apply Forall_impl. intros [] Q; try contradiction; discriminate. }
  destruct (readBody_part e2 (p ++ rest) [] p rest _ 0 m l' e3 (NI _ U2) (Nat.le_0_l _) (repeat_length _ _) eq_refl
     (app_nil_r _) R3) as [-> E3]. rewrite app_nil_r in E3. subst l'.
  exists e3. split; [|split; [auto|lia]].
  unfold readMessage. rewrite frame_lines.
  destruct evs as [|x evs]; [cbn in L; lia|]. cbn [List.length]. rewrite readHeaders_S, R1. cbn [rev app].
  rewrite header_starts, header_rest, readHeaders_S by auto.
  change ("013"%char :: "010"%char :: p ++ rest) with (["013"%char] ++ "010"%char :: (p ++ rest)).
  rewrite R2. cbn [rev app]. change (starts_with (b "Content-Length: ") ["013"%char]) with false.
  change (trim ["013"%char]) with (@nil ascii). cbv match. now rewrite Nat2N.id.
Qed.

Lemma readAll_full : forall ms fuel evs,
  Forall fits ms -> Forall undisturbed evs -> List.length (stream ms) <= ndata evs -> List.length ms <= fuel ->
  fst (readAll fuel evs (stream ms)) = ms.
Proof.
  induction ms as [|p ms IH]; intros fuel evs F U D L.
  - destruct fuel; [reflexivity|]. cbn [readAll]. change (stream []) with (@nil ascii).
    destruct (readMessage evs []) eqn:R; auto. now apply readMessage_nil in R.
  - destruct fuel; [cbn in L; lia|]. inversion F; subst.
    change (stream (p :: ms)) with (frame p ++ stream ms) in *. rewrite app_length in D.
    destruct (readMessage_full evs p (stream ms) H1 U ltac:(lia)) as (e1 & R & U1 & D1).
    cbn [readAll]. rewrite R. cbn [List.length] in L. specialize (IH fuel e1 H2 U1 ltac:(lia) ltac:(lia)).
    destruct (readAll fuel e1 (stream ms)). cbn [fst] in *. now rewrite IH.
Qed.

(** ** Dispatch *)
Section DispatchProofs.
Variable methods : list bytes.
Variable decodes : bytes -> json -> bool.
Variable answer : bytes -> json -> outcome.

Notation requests := (requests decodes answer).
Notation drun := (drun methods decodes answer).
Notation dstep := (dstep methods decodes answer).
Notation dispatch := (dispatch methods decodes).

Definition due (s : dstate) : list (json * outcome) :=
  sent s ++ List.map (fun t => (t_id t, if decodes (t_method t) (t_params t) then answer (t_method t) (t_params t) else Error)) (tasks s).
Definition decoded (s : dstate) : Prop := Forall (fun t => decodes (t_method t) (t_params t) = true) (tasks s).

Lemma getString_spec : forall k o s, getString k o = Some s <-> get k o = Some (JString s).
Proof. intros. unfold getString. destruct (get k o) as [[]|]; split; congruence. Qed.

Lemma method_known_spec : forall m, method_known methods m = true <-> In m methods.
Proof.
  intros m. unfold method_known. rewrite existsb_exists. split.
  - intros (x & A & B). apply bytes_eqb_spec in B. now subst.
  - intros H. exists m. split; auto. now apply bytes_eqb_spec.
Qed.

Lemma jsonrpc2_spec : forall o,
  (match getString (b "jsonrpc") o with Some v => bytes_eqb v (b "2.0") | None => false end) = true <->
  get (b "jsonrpc") o = Some (JString (b "2.0")).
Proof.
  intros o. rewrite <- getString_spec. destruct (getString (b "jsonrpc") o).
  - rewrite bytes_eqb_spec. split; congruence.
  - split; congruence.
Qed.

Lemma dispatch_request : forall msg id m p s, is_request msg id m p ->
  dispatch msg s =
    if method_known methods m then
      if decodes m p then DState (tasks s ++ [Task id m p]) (sent s) (running s) (replies_in s)
      else DState (tasks s) (sent s ++ [(id, Error)]) (running s) (replies_in s)
    else DState (tasks s) (sent s) false (replies_in s).
Proof.
  intros msg id m p s (o & (-> & J) & M & I & P). unfold ConnModel.dispatch. cbn [getAsObject].
  rewrite (proj2 (jsonrpc2_spec o) J). cbn [negb]. rewrite (proj2 (getString_spec _ _ _) M), I. now rewrite <- P.
Qed.

Lemma dispatch_other : forall msg s, (forall id m p, ~ is_request msg id m p) ->
  tasks (dispatch msg s) = tasks s /\ sent (dispatch msg s) = sent s.
Proof.
  intros msg s N. unfold ConnModel.dispatch. destruct msg; cbn [getAsObject tasks sent]; auto.
  destruct (match getString (b "jsonrpc") fields with Some v => bytes_eqb v (b "2.0") | None => false end) eqn:J;
    cbn [negb tasks sent]; auto.
  apply jsonrpc2_spec in J.
  destruct (getString (b "method") fields) as [mm|] eqn:M; [|destruct (get (b "id") fields); auto].
  destruct (get (b "id") fields) eqn:I.
  - apply getString_spec in M. exfalso. eapply N. exists fields. repeat split; eauto.
  - destruct (bytes_eqb _ _); auto.
Qed.

Lemma firstn_skipn_nth : forall A (l : list A) n t, nth_error l n = Some t ->
  Permutation l (t :: firstn n l ++ skipn (S n) l).
Proof.
  intros A l n t H. apply nth_error_split in H. destruct H as (l1 & l2 & -> & L). subst n.
  rewrite firstn_app, firstn_all, Nat.sub_diag. cbn [firstn]. rewrite app_nil_r.
  replace (skipn (S (List.length l1)) (l1 ++ t :: l2)) with l2.
  - symmetry. apply Permutation_middle.
  - rewrite skipn_app, skipn_all2 by lia. replace (S (List.length l1) - List.length l1) with 1 by lia. reflexivity.
Qed.

Lemma dstep_finish : forall n s, decoded s ->
  decoded (dstep (Finish n) s) /\ Permutation (due (dstep (Finish n) s)) (due s) /\
  running (dstep (Finish n) s) = running s.
Proof.
  intros n s D. cbn [ConnModel.dstep]. destruct (nth_error (tasks s) n) as [t|] eqn:E; [|auto].
  pose proof (firstn_skipn_nth _ _ _ _ E) as P. unfold decoded, due in *. cbn [tasks sent running].
  assert (D' : Forall (fun t => decodes (t_method t) (t_params t) = true)
                 (t :: firstn n (tasks s) ++ skipn (S n) (tasks s))) by (now apply (Permutation_Forall P)).
  inversion D' as [|? ? D1 D2]; subst. split; auto. split; auto.
  rewrite <- app_assoc. apply Permutation_app_head. cbn [app]. symmetry.
  etransitivity; [apply (Permutation_map _ P)|]. cbn [List.map]. rewrite D1. reflexivity.
Qed.

Lemma requests_snoc : forall es rs e rs', requests es rs -> requests [e] rs' -> requests (es ++ [e]) (rs ++ rs').
Proof.
  intros es rs e rs' H H'. induction H; cbn [app]; auto; econstructor; eauto.
Qed.

Lemma is_request_det : forall msg id m p id' m' p', is_request msg id m p -> is_request msg id' m' p' ->
  id = id' /\ m = m' /\ p = p'.
Proof.
  intros msg id m p id' m' p' (o & (E & _) & M & I & P) (o' & (E' & _) & M' & I' & P').
  rewrite E in E'. injection E' as <-. repeat split; congruence.
Qed.

Lemma is_request_dec : forall msg, (exists id m p, is_request msg id m p) \/ (forall id m p, ~ is_request msg id m p).
Proof.
  intros msg. destruct msg as [| | | | | |o]; try (right; intros id m p (o' & (E & _) & _); discriminate).
  destruct (get (b "jsonrpc") o) as [v|] eqn:J.
  2: { right; intros id m p (o' & (E & J') & _); injection E as <-; congruence. }
  destruct v as [| | | |s| |]; try (right; intros id m p (o' & (E & J') & _); injection E as <-; congruence).
  destruct (bytes_eqb s (b "2.0")) eqn:Q.
  2: { right; intros id m p (o' & (E & J') & _); injection E as <-. rewrite J in J'. injection J' as ->. discriminate. }
  apply bytes_eqb_spec in Q. subst s.
  destruct (get (b "method") o) as [v|] eqn:M.
  2: { right; intros id m p (o' & (E & _) & M' & _); injection E as <-; congruence. }
  destruct v as [| | | |m| |]; try (right; intros id m p (o' & (E & _) & M' & _); injection E as <-; congruence).
  destruct (get (b "id") o) as [id|] eqn:I.
  - left. exists id, m. eexists. exists o. repeat split; eauto.
  - right; intros id m' p (o' & (E & _) & _ & I' & _); injection E as <-; congruence.
Qed.

Lemma requests_total : forall es, exists rs, requests es rs.
Proof.
  induction es as [|e es [rs IH]]; [exists []; constructor|].
  destruct e as [msg|n].
  - destruct (is_request_dec msg) as [(id & m & p & H)|H].
    + eexists. apply RqRequest; eauto.
    + exists rs. now apply RqOther.
  - exists rs. now constructor.
Qed.

Lemma requests_det : forall es rs rs', requests es rs -> requests es rs' -> rs = rs'.
Proof.
  intros es rs rs' H. revert rs'. induction H; intros rs' H'; inversion H'; subst; auto.
  - destruct (is_request_det _ _ _ _ _ _ _ H H3) as (<- & <- & <-). f_equal. auto.
  - now apply H3 in H.
  - now apply H in H3.
Qed.

Lemma requests_one : forall msg rs, requests [Message msg] rs ->
  (exists id m p, is_request msg id m p /\ rs = [(id, if decodes m p then answer m p else Error)]) \/
  ((forall id m p, ~ is_request msg id m p) /\ rs = []).
Proof.
  intros msg rs R. inversion R as [|? id m p es rs' Q R'|? es rs' Q R'|]; subst; inversion R'; subst.
  - left. exists id, m, p. auto.
  - right. auto.
Qed.

Lemma drun_snoc : forall es e, drun (es ++ [e]) = dstep e (drun es).
Proof. intros. unfold ConnModel.drun. now rewrite fold_left_app. Qed.

Lemma decoded_snoc : forall s t, decoded s -> decodes (t_method t) (t_params t) = true ->
  Forall (fun t => decodes (t_method t) (t_params t) = true) (tasks s ++ [t]).
Proof. intros. apply Forall_app. split; auto. Qed.

(** no request is answered twice, nothing else is answered *)
Lemma drun_at_most : forall es rs, requests es rs ->
  decoded (drun es) /\ exists rest, Permutation (due (drun es) ++ rest) rs.
Proof.
  intros es. induction es as [|e es IH] using rev_ind; intros rs R.
  - inversion R; subst. split; [constructor|]. exists []. constructor.
  - destruct (requests_total es) as [rs0 R0]. destruct (IH _ R0) as [D [rest P]].
    destruct (requests_total [e]) as [rs1 R1].
    pose proof (requests_det _ _ _ R (requests_snoc _ _ _ _ R0 R1)). subst rs.
    rewrite drun_snoc. destruct e as [msg|n].
    + cbn [ConnModel.dstep]. destruct (running (drun es)).
      2: { split; auto. exists (rest ++ rs1). rewrite app_assoc. now apply Permutation_app_tail. }
      destruct (requests_one _ _ R1) as [(id & m & p & H2 & ->)|[H1 ->]].
      * rewrite (dispatch_request _ _ _ _ _ H2).
        destruct (method_known methods m).
        -- destruct (decodes m p) eqn:E.
           ++ split; [now apply decoded_snoc|]. exists rest. unfold due in *. cbn [tasks sent].
              rewrite map_app. cbn [List.map t_id t_method t_params]. rewrite E.
              rewrite <- !app_assoc in *. etransitivity; [|apply Permutation_app_tail; exact P].
              rewrite <- !app_assoc. do 2 apply Permutation_app_head. apply Permutation_app_comm.
           ++ split; auto. exists rest. unfold due in *. cbn [tasks sent]. rewrite <- !app_assoc in *.
              etransitivity; [|apply Permutation_app_tail; exact P]. rewrite <- !app_assoc.
              apply Permutation_app_head. etransitivity; [apply Permutation_app_comm|]. now rewrite <- app_assoc.
        -- split; auto. eexists. unfold due in *. cbn [tasks sent].
           etransitivity; [|apply Permutation_app_tail; exact P]. rewrite <- (app_assoc _ rest). reflexivity.
      * destruct (dispatch_other msg (drun es) H1) as [A B].
        unfold decoded, due in *. rewrite A, B. split; auto. exists rest. now rewrite app_nil_r.
    + inversion R1 as [| | |? ? ? Rn]; subst. inversion Rn; subst. destruct (dstep_finish n _ D) as (D' & P' & _).
      split; auto. exists rest. rewrite app_nil_r. etransitivity; [|exact P]. now apply Permutation_app_tail.
Qed.

Lemma conforming_dispatch : forall msg s, conforming methods msg -> running (dispatch msg s) = running s.
Proof.
  intros msg s [(id & m & p & R & K)|[(m & (o & (-> & J) & M & I) & N)|(id & (o & (-> & J) & M & I))]].
  - rewrite (dispatch_request _ _ _ _ _ R), (proj2 (method_known_spec m) K). now destruct (decodes m p).
  - unfold ConnModel.dispatch. cbn [getAsObject]. rewrite (proj2 (jsonrpc2_spec o) J). cbn [negb].
    rewrite (proj2 (getString_spec _ _ _) M), I. destruct (bytes_eqb m (b "exit")) eqn:E; auto.
    apply bytes_eqb_spec in E. contradiction.
  - unfold ConnModel.dispatch. cbn [getAsObject]. rewrite (proj2 (jsonrpc2_spec o) J). cbn [negb].
    assert (G : getString (b "method") o = None) by (unfold getString; now rewrite M).
    now rewrite G, I.
Qed.

Lemma drun_exactly : forall es rs, Forall (conforming_event methods) es -> requests es rs ->
  running (drun es) = true /\ decoded (drun es) /\ Permutation (due (drun es)) rs.
Proof.
  intros es. induction es as [|e es IH] using rev_ind; intros rs C R.
  - inversion R; subst. repeat split; constructor.
  - apply Forall_app in C. destruct C as [C C1]. inversion C1 as [|? ? C2 _]; subst.
    destruct (requests_total es) as [rs0 R0]. destruct (IH _ C R0) as (Run & D & P).
    destruct (requests_total [e]) as [rs1 R1].
    pose proof (requests_det _ _ _ R (requests_snoc _ _ _ _ R0 R1)). subst rs.
    rewrite drun_snoc. destruct e as [msg|n].
    + cbn [ConnModel.dstep conforming_event] in *. rewrite Run. rewrite conforming_dispatch by auto.
      split; auto. destruct (requests_one _ _ R1) as [(id & m & p & H2 & ->)|[H1 ->]].
      * rewrite (dispatch_request _ _ _ _ _ H2).
        assert (K : method_known methods m = true).
        { destruct C2 as [(id' & m' & p' & R' & K)|[(m' & (o & (E & _) & _ & I) & _)|(id' & (o & (E & _) & M & _))]].
          - destruct (is_request_det _ _ _ _ _ _ _ R' H2) as (_ & <- & _). now apply method_known_spec.
          - destruct H2 as (o' & (E' & _) & _ & I' & _). congruence.
          - destruct H2 as (o' & (E' & _) & M' & _). congruence. }
        rewrite K. destruct (decodes m p) eqn:E.
        -- split; [now apply decoded_snoc|]. unfold due in *. cbn [tasks sent].
           rewrite map_app, app_assoc. cbn [List.map t_id t_method t_params]. rewrite E.
           now apply Permutation_app_tail.
        -- split; auto. unfold due in *. cbn [tasks sent]. rewrite <- app_assoc.
           etransitivity; [|apply Permutation_app_tail; exact P]. rewrite <- app_assoc.
           apply Permutation_app_head, Permutation_app_comm.
      * destruct (dispatch_other msg (drun es) H1) as [A B].
        unfold decoded, due in *. rewrite A, B. split; auto. now rewrite app_nil_r.
    + inversion R1 as [| | |? ? ? Rn]; subst. inversion Rn; subst. destruct (dstep_finish n _ D) as (D' & P' & Run').
      split; [congruence|]. split; auto. rewrite app_nil_r. now transitivity (due (drun es)).
Qed.

Lemma dispatch_response : forall msg id r s, response_with msg id r ->
  dispatch msg s = DState (tasks s) (sent s) (running s) (replies_in s ++ [(id, r)]).
Proof.
  intros msg id r s (o & (-> & J) & M & I & R). unfold ConnModel.dispatch. cbn [getAsObject].
  rewrite (proj2 (jsonrpc2_spec o) J). cbn [negb].
  assert (G : getString (b "method") o = None) by (unfold getString; now rewrite M).
  rewrite G, I. do 4 f_equal. destruct R as [(e & -> & ->)|(N & ->)]; [reflexivity|].
  destruct (get (b "error") o) as [[]|]; try reflexivity. now elim (N fields).
Qed.

Lemma response_exists : forall msg id, is_response msg id -> exists r, response_with msg id r.
Proof.
  intros msg id (o & J & M & I).
  assert (D : (exists e, get (b "error") o = Some (JObject e)) \/ forall e, get (b "error") o <> Some (JObject e)).
  { destruct (get (b "error") o) as [[]|]; eauto; right; discriminate. }
  destruct D as [(e & E)|N]; eexists; exists o; (split; [exact J|]; split; [exact M|]; split; [exact I|]).
  - left. eauto.
  - right. eauto.
Qed.

Lemma drun_responses : forall es rs, Forall (conforming_event methods) es -> responses es rs ->
  forall s, running s = true -> replies_in (fold_left (fun s e => dstep e s) es s) = replies_in s ++ rs.
Proof.
  intros es rs C R. induction R as [|msg id r es rs H R IH|msg es rs H R IH|n es rs R IH]; intros s Run;
    try (inversion C as [|? ? C1 C2]; subst); cbn [fold_left].
  - now rewrite app_nil_r.
  - cbn [ConnModel.dstep]. rewrite Run, IH; auto.
    + rewrite (dispatch_response _ _ _ _ H). cbn [replies_in]. now rewrite <- app_assoc.
    + rewrite conforming_dispatch by auto. exact Run.
  - cbn [ConnModel.dstep]. rewrite Run, IH; auto.
    + f_equal. destruct C1 as [(id & m & p & Q & K)|[(m & (o & (-> & J) & M & I) & N)|(id & Q)]].
      * rewrite (dispatch_request _ _ _ _ _ Q), (proj2 (method_known_spec m) K). now destruct (decodes m p).
      * unfold ConnModel.dispatch. cbn [getAsObject]. rewrite (proj2 (jsonrpc2_spec o) J). cbn [negb].
        rewrite (proj2 (getString_spec _ _ _) M), I. destruct (bytes_eqb m (b "exit")); reflexivity.
      * destruct (response_exists _ _ Q) as [r Q']. now elim (H id r).
    + rewrite conforming_dispatch by auto. exact Run.
  - assert (E : running (dstep (Finish n) s) = running s /\ replies_in (dstep (Finish n) s) = replies_in s).
    { cbn [ConnModel.dstep]. destruct (nth_error (tasks s) n); auto. }
    destruct E as [E1 E2]. rewrite IH; auto; congruence.
Qed.

(** letting every handler finish *)
Lemma finish_all : forall k s, decoded s -> k = List.length (tasks s) ->
  let s' := fold_left (fun s e => dstep e s) (repeat (Finish 0) k) s in
  tasks s' = [] /\ Permutation (sent s') (due s) /\ running s' = running s.
Proof.
  induction k; intros s D L; cbn [repeat fold_left].
  - destruct (tasks s) eqn:E; [|discriminate]. unfold due. rewrite E, app_nil_r. auto.
  - destruct (dstep_finish 0 s D) as (D' & P & R).
    assert (L' : k = List.length (tasks (dstep (Finish 0) s))).
    { cbn [ConnModel.dstep]. destruct (tasks s); [discriminate|]. cbn [nth_error tasks firstn skipn app].
      now injection L. }
    destruct (IHk _ D' L') as (A & B & C). cbn zeta in *. split; auto. split; [|congruence].
    now transitivity (due (dstep (Finish 0) s)).
Qed.
End DispatchProofs.

(** ** Outgoing calls *)
Definition pend_step (l : list (Z * callback)) (o : obs) : list (Z * callback) :=
  match o with
  | Issued cb i => l ++ [(i, cb)]
  | Ran cb _ _ => filter (fun ic => negb (Nat.eqb (snd ic) cb)) l
  end.
Definition pend (t : list obs) : list (Z * callback) := fold_left pend_step t [].

Lemma pend_snoc : forall t o, pend (t ++ [o]) = pend_step (pend t) o.
Proof. intros. unfold pend. now rewrite fold_left_app. Qed.

Lemma runs_app : forall cb x y, runs_of cb (x ++ y) = runs_of cb x + runs_of cb y.
Proof. intros. unfold runs_of. now rewrite filter_app, app_length. Qed.
Lemma runs_issued : forall cb c i, runs_of cb [Issued c i] = 0.
Proof. reflexivity. Qed.
Lemma runs_ran : forall cb c w o, runs_of cb [Ran c w o] = if Nat.eqb c cb then 1 else 0.
Proof. intros. unfold runs_of. cbn [filter]. now destruct (Nat.eqb c cb). Qed.
Lemma issued_app : forall x y, issued (x ++ y) = issued x ++ issued y.
Proof. intros. unfold issued. now rewrite flat_map_app. Qed.

Definition names (t : list obs) : list callback :=
  flat_map (fun o => match o with Issued cb _ => [cb] | _ => [] end) t.
Lemma names_app : forall x y, names (x ++ y) = names x ++ names y.
Proof. intros. unfold names. now rewrite flat_map_app. Qed.
Lemma names_in : forall t cb, In cb (names t) <-> exists i, In (Issued cb i) t.
Proof.
  intros. unfold names. rewrite in_flat_map. split.
  - intros ([c i|c w o] & A & B); cbn in B; [|contradiction]. destruct B as [->|[]]. eauto.
  - intros (i & H). eexists. split; [eauto|]. now left.
Qed.

(** the state kept by the trace *)
Record tinv (t : list obs) : Prop := {
  ti_issued : issued t = List.map Z.of_nat (seq 1 (List.length (issued t)));
  ti_names : NoDup (names t);
  ti_sorted : StronglySorted (fun x y => fst x < fst y)%Z (pend t);
  ti_wait : forall cb i, In (i, cb) (pend t) <-> waiting t cb i;
  ti_once : forall cb, runs_of cb t <= 1;
  ti_ran : forall cb, runs_of cb t = 1 -> In cb (names t) }.

Lemma issued_bound : forall t i, tinv t -> In i (issued t) -> (1 <= i <= Z.of_nat (List.length (issued t)))%Z.
Proof.
  intros t i H I. rewrite (ti_issued _ H) in I. apply in_map_iff in I. destruct I as (n & <- & I).
  apply in_seq in I. lia.
Qed.
Lemma issued_in : forall t i cb, In (Issued cb i) t -> In i (issued t).
Proof. intros. unfold issued. apply in_flat_map. eexists. split; [eauto|]. now left. Qed.

Lemma pend_bound : forall t i cb, tinv t -> In (i, cb) (pend t) -> (1 <= i <= Z.of_nat (List.length (issued t)))%Z.
Proof.
  intros t i cb H I. apply (ti_wait _ H) in I. apply issued_bound; auto. now apply issued_in with cb, I.
Qed.

Lemma sorted_snoc : forall (l : list (Z * callback)) x,
  StronglySorted (fun x y => fst x < fst y)%Z l -> (forall y, In y l -> fst y < fst x)%Z ->
  StronglySorted (fun x y => fst x < fst y)%Z (l ++ [x]).
Proof.
  induction l as [|y l IH]; intros x S L; cbn [app].
  - repeat constructor.
  - inversion S; subst. constructor.
    + apply IH; auto. intros z Z. apply L. now right.
    + apply Forall_app. split; auto. constructor; [apply L; now left|constructor].
Qed.
Lemma sorted_filter : forall f (l : list (Z * callback)),
  StronglySorted (fun x y => fst x < fst y)%Z l -> StronglySorted (fun x y => fst x < fst y)%Z (filter f l).
Proof.
  induction l as [|y l IH]; intros S; cbn [filter]; [constructor|]. inversion S; subst.
  destruct (f y); auto. constructor; auto. rewrite Forall_forall in *. intros z Hz. apply filter_In in Hz. now apply H2.
Qed.
Lemma sorted_nodup : forall (l : list (Z * callback)), StronglySorted (fun x y => fst x < fst y)%Z l -> NoDup l.
Proof.
  induction l; intros S; constructor; inversion S; subst; auto.
  intros I. rewrite Forall_forall in H2. specialize (H2 _ I). lia.
Qed.
Lemma sorted_fst_inj : forall (l : list (Z * callback)) i c d, StronglySorted (fun x y => fst x < fst y)%Z l ->
  In (i, c) l -> In (i, d) l -> c = d.
Proof.
  induction l as [|y l IH]; intros i c d S I J; [contradiction|]. inversion S; subst. rewrite Forall_forall in H2.
  destruct I as [->|I], J as [E|J]; subst; try congruence.
  - specialize (H2 _ J). cbn [fst] in H2. lia.
  - specialize (H2 _ I). cbn [fst] in H2. lia.
  - eauto.
Qed.

Lemma tinv_nil : tinv [].
Proof.
  constructor.
  - reflexivity.
  - constructor.
  - constructor.
  - intros cb i. unfold waiting. cbn. tauto.
  - intros cb. unfold runs_of. cbn. lia.
  - intros cb. unfold runs_of. cbn. lia.
Qed.

Lemma tinv_issue : forall t cb, tinv t -> ~ In cb (names t) ->
  tinv (t ++ [Issued cb (Z.of_nat (S (List.length (issued t))))]).
Proof.
  intros t cb H N. set (i := Z.of_nat (S (List.length (issued t)))). constructor.
  - rewrite issued_app, app_length. cbn [issued flat_map List.length app]. rewrite seq_app, map_app, <- (ti_issued _ H).
    cbn [seq List.map]. reflexivity.
  - rewrite names_app. cbn [names flat_map app].
    apply (Permutation_NoDup (l := cb :: names t)); [|constructor; auto; apply ti_names; auto].
    apply Permutation_cons_append.
  - rewrite pend_snoc. cbn [pend_step]. apply sorted_snoc; [apply ti_sorted; auto|].
    intros [j c] J. apply pend_bound in J; auto. cbn [fst]. unfold i. lia.
  - intros c j. rewrite pend_snoc. cbn [pend_step]. rewrite in_app_iff. unfold waiting. rewrite runs_app, runs_issued, in_app_iff.
    rewrite (ti_wait _ H). unfold waiting. cbn [In]. split.
    + intros [[A B]|[E|[]]]; [split; [now left|lia]|]. injection E as <- <-. split; [right; now left|].
      destruct (runs_of cb t) as [|[|n]] eqn:R; auto.
      * apply (ti_ran _ H) in R. contradiction.
      * pose proof (ti_once _ H cb). lia.
    + intros [[A|[E|[]]] B].
      * left. split; [auto|lia].
      * injection E as <- <-. right. now left.
  - intros c. rewrite runs_app, runs_issued. pose proof (ti_once _ H c). lia.
  - intros c. rewrite runs_app, runs_issued, Nat.add_0_r, names_app, in_app_iff. intros R. left. now apply ti_ran.
Qed.

Lemma names_nodup_inj : forall t cb i j, NoDup (names t) -> In (Issued cb i) t -> In (Issued cb j) t -> i = j.
Proof.
  induction t as [|o t IH]; intros cb i j N I J; [contradiction|].
  destruct o as [c k|c w o]; cbn [names flat_map app] in N.
  - inversion N; subst. destruct I as [I|I], J as [J|J].
    + congruence.
    + injection I as -> ->. exfalso. apply H1. apply names_in. eauto.
    + injection J as -> ->. exfalso. apply H1. apply names_in. eauto.
    + eauto.
  - destruct I as [I|I], J as [J|J]; try discriminate. eauto.
Qed.

Lemma tinv_run : forall t cb i w o, tinv t -> waiting t cb i -> tinv (t ++ [Ran cb w o]).
Proof.
  intros t cb i w o H [W1 W2]. constructor.
  - rewrite issued_app. cbn [issued flat_map]. rewrite app_nil_r. apply ti_issued; auto.
  - rewrite names_app. cbn [names flat_map]. rewrite app_nil_r. apply ti_names; auto.
  - rewrite pend_snoc. cbn [pend_step]. apply sorted_filter, ti_sorted; auto.
  - intros c j. rewrite pend_snoc. cbn [pend_step]. rewrite filter_In, (ti_wait _ H). cbn [snd].
    unfold waiting. rewrite runs_app, runs_ran, in_app_iff. cbn [In].
    rewrite negb_true_iff, Nat.eqb_neq. split.
    + intros [[A B] C]. split; [auto|]. destruct (Nat.eqb_spec cb c); [congruence|lia].
    + intros [[A|[A|[]]] B]; [|discriminate]. destruct (Nat.eqb_spec cb c); [lia|]. repeat split; auto; lia.
  - intros c. rewrite runs_app, runs_ran. pose proof (ti_once _ H c). destruct (Nat.eqb_spec cb c); [subst; lia|lia].
  - intros c. rewrite runs_app, runs_ran, names_app, in_app_iff. destruct (Nat.eqb_spec cb c).
    + intros _. subst. left. apply names_in. eauto.
    + rewrite Nat.add_0_r. intros R. left. now apply ti_ran.
Qed.

(** the state agrees with the trace *)
Record sinv (t : list obs) (s : server) : Prop := {
  si_t : tinv t;
  si_pend : pending s = pend t;
  si_top : topID s = (1 + Z.of_nat (List.length (issued t)))%Z;
  si_max : (topID s <= INT_MAX)%Z;
  si_len : List.length (pend t) <= 100 }.

Lemma minsert_last : forall m id cb, (forall i c, In (i, c) m -> i < id)%Z -> minsert id cb m = m ++ [(id, cb)].
Proof.
  induction m as [|[i c] m IH]; intros id cb H; cbn [minsert]; auto.
  assert (i < id)%Z by (apply (H i c); now left).
  destruct (Z.ltb_spec id i); [lia|]. destruct (Z.eqb_spec id i); [lia|]. cbn [app]. f_equal.
  apply IH. intros j d J. apply (H j d). now right.
Qed.

Lemma mfind_in : forall m id c, mfind id m = Some c -> In (id, c) m.
Proof.
  induction m as [|[i d] m IH]; intros id c H; cbn [mfind] in H; [discriminate|].
  destruct (Z.eqb_spec id i); [injection H as <-; subst; now left|right; auto].
Qed.
Lemma mfind_none : forall m id c, mfind id m = None -> ~ In (id, c) m.
Proof.
  induction m as [|[i d] m IH]; intros id c H I; [contradiction|]. cbn [mfind] in H.
  destruct (Z.eqb_spec id i); [discriminate|]. destruct I as [E|I]; [congruence|]. now apply (IH id c).
Qed.
Lemma mfind_some : forall m id c, In (id, c) m -> StronglySorted (fun x y => fst x < fst y)%Z m -> mfind id m = Some c.
Proof.
  intros m id c I S. destruct (mfind id m) as [d|] eqn:E.
  - apply mfind_in in E. now rewrite (sorted_fst_inj _ _ _ _ S I E).
  - now apply mfind_none with (c := c) in E.
Qed.

Lemma filter_ext_in' : forall A (f g : A -> bool) l, (forall x, In x l -> f x = g x) -> filter f l = filter g l.
Proof.
  induction l as [|x l IH]; intros H; cbn [filter]; auto. rewrite (H x) by now left. rewrite IH; auto.
  intros y Y. apply H. now right.
Qed.

Lemma merase_filter : forall t i cb, tinv t -> In (i, cb) (pend t) ->
  merase i (pend t) = filter (fun ic => negb (Nat.eqb (snd ic) cb)) (pend t).
Proof.
  intros t i cb H I. unfold merase. apply filter_ext_in'. intros [j c] J. cbn [fst snd]. f_equal.
  destruct (Z.eqb_spec j i), (Nat.eqb_spec c cb); auto; subst; exfalso.
  - apply n. exact (sorted_fst_inj _ _ _ _ (ti_sorted _ H) J I).
  - apply n. apply (ti_wait _ H) in I, J. exact (names_nodup_inj t cb j i (ti_names _ H) (proj1 J) (proj1 I)).
Qed.

(** what one observation may be, after a history *)
Definition ok_obs (t : list obs) (x : obs) : Prop :=
  List.length (pend t) <= 101 /\
  match x with
  | Issued _ _ => True
  | Ran cb (Some z) _ => waiting t cb (to_int z)
  | Ran cb None o => o = Error /\ List.length (pend t) = 101 /\ exists i, waiting t cb i /\
      forall c j, waiting t c j -> c <> cb -> (i < j)%Z
  end.

Lemma filter_head : forall t i cb l, tinv t -> pend t = (i, cb) :: l ->
  filter (fun ic => negb (Nat.eqb (snd ic) cb)) (pend t) = l.
Proof.
  intros t i cb l H E. rewrite <- (merase_filter t i cb H) by (rewrite E; now left).
  pose proof (ti_sorted _ H) as S. rewrite E in *. inversion S; subst. unfold merase. cbn [filter fst].
  rewrite Z.eqb_refl. cbn [negb]. rewrite (filter_ext_in' _ _ (fun _ => true)).
  - clear. induction l; cbn [filter]; congruence.
  - intros [j c] J. rewrite Forall_forall in H3. specialize (H3 _ J). cbn [fst] in *.
    destruct (Z.eqb_spec j i); [lia|reflexivity].
Qed.

Lemma op_step_inv : forall o s t s' t1, sinv t s -> (forall cb, o = Call cb -> ~ In cb (names t)) ->
  op_step o s = Ok (s', t1) ->
  sinv (t ++ t1) s' /\ names t1 = calls [o] /\ (forall x y z, t1 = x ++ y :: z -> ok_obs (t ++ x) y) /\
  (forall cb w r, In (Ran cb (Some w) r) t1 -> exists id, o = Reply id r /\ getAsInteger id = Some w).
Proof.
  intros o s t s' t1 H Fr E. pose proof (si_t _ _ H) as T. destruct o as [cb|id r].
  - cbn [op_step] in E. unfold bindReply in E. destruct (Z.eqb_spec (topID s) INT_MAX) as [|NM]; [discriminate|].
    rewrite (si_pend _ _ H) in E.
    assert (MI : minsert (topID s) cb (pend t) = pend t ++ [(topID s, cb)]).
    { apply minsert_last. intros i c I. apply pend_bound in I; auto. rewrite (si_top _ _ H). lia. }
    rewrite MI in E. specialize (Fr cb eq_refl).
    pose proof (tinv_issue t cb T Fr) as T1.
    replace (Z.of_nat (S (List.length (issued t)))) with (topID s) in T1 by (rewrite (si_top _ _ H); lia).
    pose proof (si_len _ _ H) as SL. pose proof (si_max _ _ H) as SM. pose proof (si_top _ _ H) as ST.
    assert (P1 : pend (t ++ [Issued cb (topID s)]) = pend t ++ [(topID s, cb)]) by (now rewrite pend_snoc).
    destruct (Nat.ltb_spec MaxPendingCalls (List.length (pend t ++ [(topID s, cb)]))) as [G|G].
    + rewrite <- P1 in *. destruct (pend (t ++ [Issued cb (topID s)])) as [|[i old] l] eqn:PE.
      { cbn in G. unfold MaxPendingCalls in G. lia. }
      assert (L101 : List.length ((i, old) :: l) = 101).
      { apply (f_equal (@List.length _)) in P1. rewrite app_length in P1. cbn [List.length] in *.
        unfold MaxPendingCalls in G. lia. }
      assert (W : waiting (t ++ [Issued cb (topID s)]) old i).
      { apply (ti_wait _ T1). rewrite PE. now left. }
      cbn [bind] in E. injection E as <- <-. cbn [List.map fst snd].
      assert (T2 := tinv_run _ _ _ None Error T1 W).
      replace (t ++ [Issued cb (topID s); Ran old None Error]) with ((t ++ [Issued cb (topID s)]) ++ [Ran old None Error])
        by now rewrite <- app_assoc.
      split; [|split; [|split]].
      * constructor; auto.
        -- cbn [pending]. rewrite pend_snoc. cbn [pend_step]. now rewrite (filter_head _ _ _ _ T1 PE).
        -- cbn [topID]. rewrite !issued_app, !app_length, ST. cbn [issued flat_map List.length app]. lia.
        -- cbn [topID]. unfold INT_MAX in *. lia.
        -- rewrite pend_snoc. cbn [pend_step]. rewrite (filter_head _ _ _ _ T1 PE). cbn [List.length] in L101. lia.
      * reflexivity.
      * intros x y z X. destruct x as [|x1 x].
        -- injection X as <- <-. rewrite app_nil_r. split; [lia|exact I].
        -- cbn [app] in X. injection X as <- X. destruct x as [|x2 x].
           ++ injection X as <- <-. split; [rewrite PE; lia|]. split; auto. split; [now rewrite PE|]. exists i. split; auto.
              intros c j Wc Nc. apply (ti_wait _ T1) in Wc. pose proof (ti_sorted _ T1) as S. rewrite PE in Wc, S.
              inversion S; subst. destruct Wc as [Wc|Wc]; [congruence|]. rewrite Forall_forall in H3.
              exact (H3 _ Wc).
           ++ cbn [app] in X. injection X as _ X. now apply app_cons_not_nil in X.
      * intros c w r [X|[X|[]]]; discriminate.
    + cbn [bind] in E. injection E as <- <-. cbn [List.map]. split; [|split; [|split]].
      * constructor; auto.
        -- cbn [topID]. rewrite issued_app, app_length, ST. cbn [issued flat_map List.length app]. lia.
        -- cbn [topID]. unfold INT_MAX in *. lia.
        -- rewrite P1. unfold MaxPendingCalls in G. lia.
      * reflexivity.
      * intros x y z X. destruct x as [|x1 x].
        -- injection X as <- <-. rewrite app_nil_r. split; [lia|exact I].
        -- cbn [app] in X. injection X as _ X. now apply app_cons_not_nil in X.
      * intros c w r [X|[]]; discriminate.
  - cbn [op_step] in E. unfold onReply in E. destruct (getAsInteger id) as [z|] eqn:GI; [|discriminate].
    destruct (Z.ltb_spec INT_MAX z); [discriminate|]. rewrite (si_pend _ _ H) in E.
    destruct (mfind (to_int z) (pend t)) as [cb|] eqn:F.
    + cbn [bind List.map fst snd] in E. injection E as <- <-. apply mfind_in in F.
      assert (W : waiting t cb (to_int z)) by now apply (ti_wait _ T).
      split; [|split; [|split]].
      * constructor.
        -- now apply tinv_run with (to_int z).
        -- cbn [pending]. rewrite pend_snoc. cbn [pend_step]. now apply merase_filter.
        -- cbn [topID]. rewrite issued_app. cbn [issued flat_map]. rewrite app_nil_r. apply (si_top _ _ H).
        -- apply (si_max _ _ H).
        -- rewrite pend_snoc. cbn [pend_step]. pose proof (si_len _ _ H).
           assert (X : forall f (l : list (Z * callback)), List.length (filter f l) <= List.length l).
           { intros f l. induction l; cbn [filter List.length]; auto. destruct (f a); cbn [List.length]; lia. }
           etransitivity; [apply X|]. lia.
      * reflexivity.
      * intros x y z' X. destruct x as [|x1 x].
        -- injection X as <- <-. rewrite app_nil_r. split; [pose proof (si_len _ _ H); lia|exact W].
        -- cbn [app] in X. injection X as _ X. now apply app_cons_not_nil in X.
      * intros c w r' [X|[]]. injection X as -> <- ->. eauto.
    + cbn [bind List.map] in E. injection E as <- <-. rewrite app_nil_r. split; auto. split; auto. split.
      * intros x y z' X. now apply app_cons_not_nil in X.
      * intros c w r' [].
Qed.

Lemma calls_app : forall x y, calls (x ++ y) = calls x ++ calls y.
Proof. intros. unfold calls. now rewrite flat_map_app. Qed.

Lemma split_app : forall A (u v x : list A) y z, u ++ v = x ++ y :: z ->
  (exists r, u = x ++ y :: r) \/ (exists r, x = u ++ r /\ v = r ++ y :: z).
Proof.
  induction u as [|a u IH]; intros v x y z E.
  - right. exists x. auto.
  - destruct x as [|c x]; cbn [app] in E.
    + injection E as <- E. left. now exists u.
    + injection E as <- E. destruct (IH _ _ _ _ E) as [[r ->]|[r [-> ->]]]; [left; now exists r|right; now exists r].
Qed.

Lemma op_run_inv : forall ops s t s' t1, sinv t s -> NoDup (names t ++ calls ops) -> op_run ops s = Ok (s', t1) ->
  sinv (t ++ t1) s' /\ (forall x y z, t1 = x ++ y :: z -> ok_obs (t ++ x) y) /\ names t1 = calls ops /\
  (forall cb w r, In (Ran cb (Some w) r) t1 -> exists id, In (Reply id r) ops /\ getAsInteger id = Some w).
Proof.
  induction ops as [|o ops IH]; intros s t s' t1 H N E; cbn [op_run] in E.
  - injection E as <- <-. rewrite app_nil_r. split; auto. split; [|split; auto].
    + intros x y z X. now apply app_cons_not_nil in X.
    + intros cb w r [].
  - destruct (op_step o s) as [[s1 ta]| |] eqn:S; try discriminate. cbn [bind] in E.
    destruct (op_run ops s1) as [[s2 tb]| |] eqn:R; try discriminate. cbn [bind] in E. injection E as <- <-.
    change (o :: ops) with ([o] ++ ops) in N. rewrite calls_app in N.
    assert (Fr : forall cb, o = Call cb -> ~ In cb (names t)).
    { intros cb -> I. cbn [calls flat_map app] in N. apply NoDup_remove_2 in N. apply N. apply in_or_app. now left. }
    destruct (op_step_inv _ _ _ _ _ H Fr S) as (H1 & N1 & O1 & R1).
    rewrite app_assoc, <- N1, <- names_app in N.
    destruct (IH _ _ _ _ H1 N R) as (H2 & O2 & N2 & R2). split; [now rewrite app_assoc|]. split; [|split].
    + intros x y z X. destruct (split_app _ _ _ _ _ _ X) as [[r ->]|[r [-> ->]]].
      * now apply (O1 x y r).
      * rewrite app_assoc. now apply (O2 r y z).
    + change (o :: ops) with ([o] ++ ops). rewrite names_app, calls_app. congruence.
    + intros cb w r I. apply in_app_or in I. destruct I as [I|I].
      * destruct (R1 _ _ _ I) as (id & -> & G). exists id. split; auto. now left.
      * destruct (R2 _ _ _ I) as (id & G1 & G2). exists id. split; auto. now right.
Qed.

Lemma sinv_init : sinv [] server_init.
Proof. constructor; cbn; auto; try lia; try apply tinv_nil. unfold INT_MAX; lia. Qed.

Lemma op_run_init : forall ops s t, NoDup (calls ops) -> op_run ops server_init = Ok (s, t) ->
  sinv t s /\ (forall x y z, t = x ++ y :: z -> ok_obs x y) /\ names t = calls ops /\
  (forall cb w r, In (Ran cb (Some w) r) t -> exists id, In (Reply id r) ops /\ getAsInteger id = Some w).
Proof. intros ops s t N E. exact (op_run_inv ops server_init [] s t sinv_init N E). Qed.

Lemma to_int_id : forall z, int32 z -> to_int z = z.
Proof. intros z H. unfold to_int, int32 in *. rewrite Z.mod_small; lia. Qed.

Lemma waiting_count : forall t n, tinv t -> List.length (pend t) <= n ->
  forall l : list (Z * callback), NoDup l -> (forall i cb, In (i, cb) l -> waiting t cb i) -> List.length l <= n.
Proof.
  intros t n T L l N W. etransitivity; [|exact L]. apply NoDup_incl_length; auto.
  intros [i cb] I. apply (ti_wait _ T). auto.
Qed.

(** every part of a trace is as regular as the whole *)
Lemma tinv_part : forall t1 t2, (forall x y z, t1 ++ t2 = x ++ y :: z -> ok_obs x y) -> tinv (t1 ++ t2) -> tinv t1.
Proof.
  induction t1 as [|y t1 IH] using rev_ind; intros t2 O T; [apply tinv_nil|].
  rewrite <- app_assoc in O, T. specialize (IH _ O T). specialize (O t1 y t2 eq_refl).
  destruct y as [cb i|cb w o].
  - pose proof (ti_issued _ T) as I. rewrite issued_app, app_length in I. cbn [issued flat_map app List.length] in I.
    rewrite seq_app, map_app, <- (ti_issued _ IH) in I. apply app_inv_head in I.
    cbn [seq List.map] in I. injection I as -> _. pose proof (ti_names _ T) as N. rewrite names_app in N.
    replace (Z.of_nat (1 + List.length (issued t1))) with (Z.of_nat (S (List.length (issued t1)))) by reflexivity.
    apply tinv_issue; auto. cbn [app names flat_map] in N. apply NoDup_remove_2 in N. intros J. apply N, in_or_app. now left.
  - destruct O as [_ O]. destruct w as [z|].
    + exact (tinv_run _ _ _ _ _ IH O).
    + destruct O as (_ & _ & i & W & _). exact (tinv_run _ _ _ _ _ IH W).
Qed.

Lemma op_run_ok : forall ops s t, sinv t s -> NoDup (names t ++ calls ops) ->
  (topID s + Z.of_nat (List.length (calls ops)) <= INT_MAX)%Z ->
  (forall id r, In (Reply id r) ops -> exists z, getAsInteger id = Some z /\ (z <= INT_MAX)%Z) ->
  exists s' t', op_run ops s = Ok (s', t').
Proof.
  induction ops as [|o ops IH]; intros s t H N M G; cbn [op_run]; [eauto|].
  assert (St : exists s1 t1, op_step o s = Ok (s1, t1) /\
     (topID s1 = topID s + Z.of_nat (List.length (calls [o])))%Z).
  { destruct o as [cb|id r]; cbn [op_step].
    - unfold bindReply. destruct (Z.eqb_spec (topID s) INT_MAX) as [E|E].
      { change (Call cb :: ops) with ([Call cb] ++ ops) in M. rewrite calls_app, app_length in M.
        cbn [calls flat_map List.length app] in M. lia. }
      destruct (Nat.ltb _ _) eqn:L.
      + destruct (minsert (topID s) cb (pending s)) as [|[i c] m].
        * cbn in L. discriminate.
        * cbn [bind]. do 2 eexists. split; [reflexivity|]. reflexivity.
      + cbn [bind]. do 2 eexists. split; [reflexivity|]. reflexivity.
    - destruct (G id r (or_introl eq_refl)) as (z & Gz & Lz). unfold onReply. rewrite Gz.
      destruct (Z.ltb_spec INT_MAX z); [lia|].
      destruct (mfind _ _); cbn [bind]; do 2 eexists; (split; [reflexivity|]); cbn; lia. }
  destruct St as (s1 & t1 & St & Top). rewrite St. cbn [bind].
  assert (Fr : forall cb, o = Call cb -> ~ In cb (names t)).
  { intros cb -> I. change (Call cb :: ops) with ([Call cb] ++ ops) in N. rewrite calls_app in N.
    cbn [calls flat_map app] in N. apply NoDup_remove_2 in N. apply N. apply in_or_app. now left. }
  destruct (op_step_inv _ _ _ _ _ H Fr St) as (H1 & N1 & _).
  change (o :: ops) with ([o] ++ ops) in N, M. rewrite calls_app in N, M. rewrite app_length in M.
  rewrite app_assoc, <- N1, <- names_app in N.
  destruct (IH s1 (t ++ t1) H1 N ltac:(lia) (fun id r I => G id r (or_intror I))) as (s' & t' & E).
  rewrite E. cbn [bind]. eauto.
Qed.
