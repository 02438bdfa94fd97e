(** Proofs about document text handling. *)
From Coq Require Import DecimalString DecimalZ DecimalFacts.
From Verif Require Import Base TextModel TextSpec LexProofs.
Local Open Scope nat_scope.

(** ** UTF-8 *)
Lemma code_ascii n : (n < 256)%N -> code (ascii_of_N n) = n.
Proof. apply N_ascii_embedding. Qed.

Lemma is_lf_code c : is_lf c = N.eqb (code c) 10.
Proof.
  unfold is_lf, code. destruct (N.eqb_spec (N_of_ascii c) 10) as [E|E].
  - apply Ascii.eqb_eq. rewrite <- (ascii_N_embedding c), E. reflexivity.
  - apply Ascii.eqb_neq. intros ->. now apply E.
Qed.

Lemma is_lf_true c : is_lf c = true -> c = "010"%char.
Proof. apply Ascii.eqb_eq. Qed.

Definition cont (c : ascii) : Prop := (128 <= code c < 192)%N.

Lemma div64 x k : (x / 64 < k)%N <-> (x < k * 64)%N.
Proof. split; intros H. - pose proof (N.mod_lt x 64). pose proof (N.div_mod x 64). lia.
  - apply N.div_lt_upper_bound; lia. Qed.

Lemma utf8_char_shape x : scalar x ->
  exists c w, utf8_char x = c :: w /\ lead c = (S (List.length w), u16 x) /\
    (Forall cont w) /\ (x = 10%N -> c = "010"%char /\ w = []) /\ (x <> 10%N -> is_lf c = false).
Proof.
  intros Hs. unfold scalar in Hs. unfold utf8_char, u16.
  pose proof (N.mod_lt x 64 ltac:(lia)) as M0.
  pose proof (N.mod_lt (x / 64) 64 ltac:(lia)) as M1.
  pose proof (N.mod_lt (x / 4096) 64 ltac:(lia)) as M2.
  assert (D1 : forall k, (x < k * 64)%N -> (x / 64 < k)%N) by (intros; apply N.div_lt_upper_bound; lia).
  assert (D2 : forall k, (x < k * 4096)%N -> (x / 4096 < k)%N) by (intros; apply N.div_lt_upper_bound; lia).
  assert (D3 : forall k, (x < k * 262144)%N -> (x / 262144 < k)%N) by (intros; apply N.div_lt_upper_bound; lia).
  assert (C : forall n, (n < 64)%N -> cont (ascii_of_N (128 + n))).
  { intros n Hn. unfold cont. rewrite code_ascii by lia. lia. }
  destruct (N.ltb_spec x 0x80).
  { eexists _, []. split; [reflexivity|]. unfold lead. rewrite is_lf_code, !code_ascii by lia.
    destruct (N.ltb_spec x 128); [|lia]. destruct (N.ltb_spec x 65536); [|lia].
    repeat split; auto. - now subst. - intros. now apply N.eqb_neq. }
  destruct (N.ltb_spec x 0x800).
  { eexists _, [_]. split; [reflexivity|]. unfold lead.
    specialize (D1 32%N ltac:(lia)). generalize dependent (x / 64)%N. intros q. intros. rewrite is_lf_code, !code_ascii by lia.
    repeat (match goal with |- context [N.ltb ?a ?c] => destruct (N.ltb_spec a c); try lia end).
    repeat split; auto; try lia. intros. apply N.eqb_neq. lia. }
  destruct (N.ltb_spec x 0x10000).
  { eexists _, [_;_]. split; [reflexivity|]. unfold lead.
    specialize (D2 16%N ltac:(lia)). generalize dependent (x / 4096)%N. intros q. intros. rewrite is_lf_code, !code_ascii by lia.
    repeat (match goal with |- context [N.ltb ?a ?c] => destruct (N.ltb_spec a c); try lia end).
    repeat split; auto; try lia. intros. apply N.eqb_neq. lia. }
  { eexists _, [_;_;_]. split; [reflexivity|]. unfold lead.
    specialize (D3 8%N ltac:(lia)). generalize dependent (x / 262144)%N. intros q. intros. rewrite is_lf_code, !code_ascii by lia.
    repeat (match goal with |- context [N.ltb ?a ?c] => destruct (N.ltb_spec a c); try lia end).
    repeat split; auto; try lia. intros. apply N.eqb_neq. lia. }
Qed.

Lemma utf8_app d1 d2 : utf8 (d1 ++ d2) = utf8 d1 ++ utf8 d2.
Proof. apply flat_map_app. Qed.

Lemma utf8_cons x d : utf8 (x :: d) = utf8_char x ++ utf8 d.
Proof. reflexivity. Qed.

Lemma cont_no_lf w : Forall cont w -> Forall (fun c => is_lf c = false) w.
Proof. intros H. eapply Forall_impl; [|exact H]. intros c Hc. rewrite is_lf_code. apply N.eqb_neq. unfold cont in Hc. lia. Qed.

Lemma utf8_char_lf : utf8_char LF = ["010"%char].
Proof. reflexivity. Qed.

Lemma utf8_char_no_lf x : scalar x -> x <> LF -> Forall (fun c => is_lf c = false) (utf8_char x).
Proof.
  intros Hs Hx. destruct (utf8_char_shape x Hs) as (c & w & -> & _ & Hw & _ & Hn).
  constructor; [now apply Hn|now apply cont_no_lf].
Qed.

Lemma utf8_no_lf d : unicode d -> ~ In LF d -> Forall (fun c => is_lf c = false) (utf8 d).
Proof.
  induction d as [|x d IH]; intros Hu Hn; [constructor|]. inversion Hu; subst. rewrite utf8_cons.
  apply Forall_app. split.
  - apply utf8_char_no_lf; auto. intros ->. apply Hn. now left.
  - apply IH; auto. intros Hi. apply Hn. now right.
Qed.

(** ** code points *)
Lemma codepoints_skip w s : codepoints (List.length w) (w ++ s) = codepoints 0 s.
Proof. induction w as [|c w IH]; simpl; auto. Qed.

Lemma codepoints_char x s : scalar x ->
  codepoints 0 (utf8_char x ++ s) = (List.length (utf8_char x), u16 x) :: codepoints 0 s.
Proof.
  intros Hs. destruct (utf8_char_shape x Hs) as (c & w & -> & L & _). simpl. rewrite L. simpl.
  rewrite Nat.sub_0_r, codepoints_skip. reflexivity.
Qed.

Definition cps (d : text) : list (nat * nat) := List.map (fun x => (List.length (utf8_char x), u16 x)) d.

Lemma codepoints_utf8 d : unicode d -> codepoints 0 (utf8 d) = cps d.
Proof.
  induction d as [|x d IH]; intros H; [reflexivity|]. inversion H; subst. rewrite utf8_cons, codepoints_char, IH by auto.
  reflexivity.
Qed.

Lemma u16_pos x : 1 <= u16 x <= 2.
Proof. unfold u16. destruct (N.ltb x 65536); lia. Qed.

Lemma fold_cps d n : fold_left (fun n cp => n + snd cp) (cps d) n = n + u16len d.
Proof.
  revert n. induction d as [|x d IH]; intros n; simpl; [unfold u16len; simpl; lia|].
  rewrite IH. unfold u16len. simpl. lia.
Qed.

Lemma lspLength_utf8 d : unicode d -> lspLength (utf8 d) = u16len d.
Proof. intros H. unfold lspLength. rewrite codepoints_utf8, fold_cps by auto. reflexivity. Qed.

Lemma u16len_app d1 d2 : u16len (d1 ++ d2) = u16len d1 + u16len d2.
Proof. unfold u16len. rewrite map_app, list_sum_app. reflexivity. Qed.
Lemma u16len_cons x d : u16len (x :: d) = u16 x + u16len d.
Proof. reflexivity. Qed.

Lemma to_int32_small z : (-2147483648 <= z < 2147483648)%Z -> to_int32 z = z.
Proof. intros H. unfold to_int32. rewrite Z.mod_small by lia. lia. Qed.

(** ** measureUnits on UTF-8 *)
(* stops exactly after [d1] *)
Lemma measure_loop_inside d1 d2 n r : d1 <> [] -> n = Z.of_nat (u16len d1) ->
  measure_loop (cps (d1 ++ d2)) n r = (true, 0%Z, r + List.length (utf8 d1)).
Proof.
  revert n r. induction d1 as [|x d1 IH]; intros n r Hne ->; [now elim Hne|].
  simpl. rewrite u16len_cons.
  destruct d1 as [|y d1].
  - simpl. replace (Z.of_nat (u16 x + u16len []) - Z.of_nat (u16 x))%Z with 0%Z by (unfold u16len; simpl; lia).
    simpl. rewrite app_nil_r. reflexivity.
  - pose proof (u16_pos y). rewrite (u16len_cons y).
    destruct (Z.leb_spec (Z.of_nat (u16 x + (u16 y + u16len d1)) - Z.of_nat (u16 x)) 0); [lia|].
    rewrite IH; [|discriminate|rewrite u16len_cons; lia].
    f_equal. simpl. rewrite !app_length. lia.
Qed.

(* runs out *)
Lemma measure_loop_past d n r : (Z.of_nat (u16len d) < n)%Z ->
  measure_loop (cps d) n r = (false, (n - Z.of_nat (u16len d))%Z, r + List.length (utf8 d)).
Proof.
  revert n r. induction d as [|x d IH]; intros n r H; simpl.
  - unfold u16len. simpl. f_equal; [f_equal|]; lia.
  - rewrite u16len_cons in *. destruct (Z.leb_spec (n - Z.of_nat (u16 x)) 0); [lia|].
    rewrite IH by lia. rewrite app_length. f_equal; [f_equal|]; lia.
Qed.

(* lands in the middle of a surrogate pair *)
Lemma measure_loop_mid d1 x d2 n r : u16 x = 2 -> n = (Z.of_nat (u16len d1) + 1)%Z ->
  measure_loop (cps (d1 ++ x :: d2)) n r = (true, (-1)%Z, r + List.length (utf8 (d1 ++ [x]))).
Proof.
  intros Hx. revert n r. induction d1 as [|y d1 IH]; intros n r ->.
  - unfold cps. simpl. rewrite Hx. simpl. rewrite app_nil_r. reflexivity.
  - change ((y :: d1) ++ x :: d2) with (y :: (d1 ++ x :: d2)). unfold cps. simpl. fold (cps (d1 ++ x :: d2)).
    rewrite u16len_cons.
    destruct (Z.leb_spec (Z.of_nat (u16 y + u16len d1) + 1 - Z.of_nat (u16 y)) 0); [lia|].
    rewrite IH by lia. rewrite app_length. f_equal. lia.
Qed.

Lemma measureUnits_inside d1 d2 : unicode (d1 ++ d2) -> (Z.of_nat (u16len d1) < 2147483648)%Z ->
  measureUnits (utf8 (d1 ++ d2)) (Z.of_nat (u16len d1)) = (List.length (utf8 d1), true).
Proof.
  intros H Hb. unfold measureUnits. rewrite to_int32_small by lia.
  destruct d1 as [|x d1].
  - reflexivity.
  - pose proof (u16_pos x). rewrite u16len_cons. destruct (Z.leb_spec (Z.of_nat (u16 x + u16len d1)) 0); [lia|].
    rewrite codepoints_utf8 by auto. rewrite <- u16len_cons, measure_loop_inside by (auto; discriminate).
    rewrite Nat.add_0_l, utf8_app, app_length.
    destruct (Nat.ltb_spec (List.length (utf8 (x :: d1)) + List.length (utf8 d2)) (List.length (utf8 (x :: d1)))); [lia|].
    reflexivity.
Qed.

Lemma measureUnits_past d n : unicode d -> (Z.of_nat (u16len d) < n < 2147483648)%Z ->
  measureUnits (utf8 d) n = (List.length (utf8 d), false).
Proof.
  intros H Hb. unfold measureUnits. rewrite to_int32_small by lia.
  destruct (Z.leb_spec n 0); [lia|]. rewrite codepoints_utf8, measure_loop_past by (auto; lia).
  destruct (Z.ltb_spec (n - Z.of_nat (u16len d)) 0); simpl; rewrite Nat.ltb_irrefl; reflexivity.
Qed.

Lemma measureUnits_mid d1 x d2 n : unicode (d1 ++ x :: d2) -> u16 x = 2 -> n = (Z.of_nat (u16len d1) + 1)%Z ->
  (n < 2147483648)%Z ->
  measureUnits (utf8 (d1 ++ x :: d2)) n = (List.length (utf8 (d1 ++ [x])), false).
Proof.
  intros H Hx -> Hb. unfold measureUnits. rewrite to_int32_small by lia.
  destruct (Z.leb_spec (Z.of_nat (u16len d1) + 1) 0); [lia|].
  rewrite codepoints_utf8, measure_loop_mid by auto. simpl.
  replace (d1 ++ x :: d2) with ((d1 ++ [x]) ++ d2) by (rewrite <- app_assoc; reflexivity).
  rewrite (utf8_app (d1 ++ [x])), app_length.
  destruct (Nat.ltb_spec (List.length (utf8 (d1 ++ [x])) + List.length (utf8 d2)) (List.length (utf8 (d1 ++ [x])))); [lia|reflexivity].
Qed.

(** every column falls in one of the three cases *)
Lemma column_cases d n : 0 <= n ->
  (exists d1 d2, d = d1 ++ d2 /\ n = u16len d1) \/
  u16len d < n \/
  (exists d1 x d2, d = d1 ++ x :: d2 /\ u16 x = 2 /\ n = u16len d1 + 1).
Proof.
  revert n. induction d as [|x d IH]; intros n _.
  - destruct n; [left; now exists [], []|right; left; unfold u16len; simpl; lia].
  - destruct n as [|n]; [left; now exists [], (x :: d)|].
    pose proof (u16_pos x).
    destruct (Nat.eq_dec (u16 x) 2) as [E|E].
    + destruct n as [|n].
      * right. right. exists [], x, d. auto.
      * destruct (IH n) as [(d1 & d2 & -> & ->)|[L|(d1 & y & d2 & -> & Hy & ->)]]; [lia| | |].
        -- left. exists (x :: d1), d2. rewrite u16len_cons. split; [reflexivity|lia].
        -- right; left. rewrite u16len_cons. lia.
        -- right; right. exists (x :: d1), y, d2. rewrite u16len_cons. repeat split; auto; lia.
    + destruct (IH n) as [(d1 & d2 & -> & ->)|[L|(d1 & y & d2 & -> & Hy & ->)]]; [lia| | |].
      * left. exists (x :: d1), d2. rewrite u16len_cons. split; [reflexivity|lia].
      * right; left. rewrite u16len_cons. lia.
      * right; right. exists (x :: d1), y, d2. rewrite u16len_cons. repeat split; auto; lia.
Qed.

(** ** Lines *)
Notation cnt d := (count_occ N.eq_dec d LF).

Lemma line_start_no_lf w s o n : Forall (fun c => is_lf c = false) w -> (n <> 0)%Z ->
  line_start (w ++ s) o n = line_start s (o + List.length w) n.
Proof.
  revert o. induction w as [|c w IH]; intros o H Hn.
  - simpl. now rewrite Nat.add_0_r.
  - inversion H as [|? ? Hc Hw]; subst. simpl. rewrite (proj2 (Z.eqb_neq n 0)) by auto. rewrite Hc.
    rewrite IH by auto. f_equal. lia.
Qed.

Lemma line_start_zero s o : line_start s o 0 = Some o.
Proof. destruct s; reflexivity. Qed.

(* [above] ends with a line feed (or is empty) and contains [l] of them *)
Lemma line_start_above above s o : unicode above -> (above = [] \/ exists a, above = a ++ [LF]) ->
  line_start (utf8 above ++ s) o (Z.of_nat (cnt above)) = Some (o + List.length (utf8 above)).
Proof.
  revert o. induction above as [|x d IH]; intros o Hu Hs.
  - simpl. rewrite line_start_zero. f_equal. lia.
  - inversion Hu as [|? ? Hx Hd]; subst. rewrite utf8_cons, <- app_assoc.
    assert (Hs' : d = [] /\ x = LF \/ (exists a, d = a ++ [LF])).
    { destruct Hs as [|[a Ha]]; [discriminate|]. destruct a as [|y a]; inversion Ha; subst; [now left|right; now exists a]. }
    destruct (N.eq_dec x LF) as [->|Hne].
    + rewrite count_occ_cons_eq by auto. rewrite utf8_char_lf. simpl app. cbn [line_start].
      rewrite (proj2 (Z.eqb_neq _ 0)) by lia. simpl is_lf. cbv iota.
      replace (Z.of_nat (S (cnt d)) - 1)%Z with (Z.of_nat (cnt d)) by lia.
      rewrite IH; auto. * f_equal. cbn [List.length]. lia.
      * destruct Hs' as [[-> _]|?]; auto.
    + rewrite count_occ_cons_neq by auto.
      destruct Hs' as [[_ ->]|Ha]; [now elim Hne|].
      rewrite line_start_no_lf; [|now apply utf8_char_no_lf|].
      * rewrite IH by auto. f_equal. rewrite app_length. lia.
      * destruct Ha as [a ->]. rewrite count_occ_app. simpl. lia.
Qed.

Lemma line_start_none d o l : unicode d -> (Z.of_nat (cnt d) < l)%Z -> line_start (utf8 d) o l = None.
Proof.
  revert o l. induction d as [|x d IH]; intros o l Hu Hl.
  - simpl. destruct (Z.eqb_spec l 0); [simpl in Hl; lia|reflexivity].
  - inversion Hu as [|? ? Hx Hd]; subst. rewrite utf8_cons.
    destruct (N.eq_dec x LF) as [->|Hne].
    + rewrite count_occ_cons_eq in Hl by auto. rewrite utf8_char_lf. simpl app. cbn [line_start].
      rewrite (proj2 (Z.eqb_neq _ 0)) by lia. simpl is_lf. cbv iota. apply IH; auto. lia.
    + rewrite count_occ_cons_neq in Hl by auto.
      rewrite line_start_no_lf; [apply IH; auto|now apply utf8_char_no_lf|lia].
Qed.

Lemma line_start_bound s o n i : line_start s o n = Some i -> o <= i <= o + List.length s.
Proof.
  revert o n. induction s as [|c s IH]; intros o n H; simpl in H.
  - destruct (n =? 0)%Z; [|discriminate]. inversion H; simpl; lia.
  - destruct (n =? 0)%Z; [inversion H; simpl; lia|].
    destruct (is_lf c); apply IH in H; simpl; lia.
Qed.

Lemma take_until_no_lf w s : Forall (fun c => is_lf c = false) w ->
  take_until_lf (w ++ s) = w ++ take_until_lf s.
Proof. induction w as [|c w IH]; intros H; [reflexivity|]. inversion H; subst. simpl. rewrite H2, IH; auto. Qed.

Lemma take_until_length s : List.length (take_until_lf s) <= List.length s.
Proof. induction s as [|c s IH]; simpl; auto. destruct (is_lf c); simpl; lia. Qed.

(** the line that starts at the head of [d] *)
Lemma split_line (d : text) : exists line rest, d = line ++ rest /\ ~ In LF line /\ (rest = [] \/ exists r, rest = LF :: r).
Proof.
  induction d as [|x d (line & rest & -> & Hn & Hr)].
  - exists [], []. auto.
  - destruct (N.eq_dec x LF) as [->|Hx].
    + exists [], (LF :: line ++ rest). split; [reflexivity|]. split; [auto|right; eauto].
    + exists (x :: line), rest. split; [reflexivity|]. split; auto. intros [|]; auto.
Qed.

Lemma take_until_line line rest : unicode line -> ~ In LF line -> (rest = [] \/ exists r, rest = LF :: r) ->
  take_until_lf (utf8 (line ++ rest)) = utf8 line.
Proof.
  intros Hu Hn Hr. rewrite utf8_app, take_until_no_lf by (now apply utf8_no_lf).
  destruct Hr as [->|[r ->]]; simpl; now rewrite app_nil_r.
Qed.

(** decomposition at the last line feed *)
Lemma split_last (d : text) : exists above last, d = above ++ last /\ ~ In LF last /\ (above = [] \/ exists a, above = a ++ [LF]).
Proof.
  induction d as [|x d (above & last & -> & Hn & Ha)] using rev_ind.
  - exists [], []. auto.
  - destruct (N.eq_dec x LF) as [->|Hx].
    + exists ((above ++ last) ++ [LF]), []. rewrite app_nil_r. split; auto. split; auto. right; eauto.
    + exists above, (last ++ [x]). rewrite app_assoc. split; auto. split; auto.
      rewrite in_app_iff. simpl. intros [|[|[]]]; auto.
Qed.

Lemma cnt_app d1 d2 : cnt (d1 ++ d2) = cnt d1 + cnt d2.
Proof. apply count_occ_app. Qed.
Lemma cnt_none d : ~ In LF d -> cnt d = 0.
Proof. apply count_occ_not_In. Qed.

Lemma unicode_app d1 d2 : unicode (d1 ++ d2) <-> unicode d1 /\ unicode d2.
Proof. apply Forall_app. Qed.

Lemma skipn_length_app {A} (x y : list A) : skipn (List.length x) (x ++ y) = y.
Proof. rewrite skipn_app, skipn_all, Nat.sub_diag. reflexivity. Qed.
Lemma firstn_length_app {A} (x y : list A) : firstn (List.length x) (x ++ y) = x.
Proof. rewrite firstn_app, firstn_all, Nat.sub_diag. simpl. apply app_nil_r. Qed.

(** ** positionToOffset *)

(** the general evaluation: [above] is everything before line [l]; [line] is that line *)
Lemma positionToOffset_line above line rest l c allow :
  unicode above -> unicode line -> unicode rest ->
  (above = [] \/ exists a, above = a ++ [LF]) -> ~ In LF line -> (rest = [] \/ exists r, rest = LF :: r) ->
  l = Z.of_nat (cnt above) -> (0 <= c)%Z ->
  positionToOffset (utf8 (above ++ line ++ rest)) (LPos l c) allow =
  let '(n, valid) := measureUnits (utf8 line) c in
  if negb valid && negb allow then None else Some (List.length (utf8 above) + n).
Proof.
  intros Ua Ul Ur Ha Hl Hr -> Hc. unfold positionToOffset. simpl.
  destruct (Z.ltb_spec (Z.of_nat (cnt above)) 0); [lia|]. destruct (Z.ltb_spec c 0); [lia|].
  rewrite utf8_app, line_start_above by auto. rewrite Nat.add_0_l, skipn_length_app, take_until_line by auto. reflexivity.
Qed.

Lemma position_inside before after p allow : unicode (before ++ after) -> lf_position before p -> (p_char p < 2147483648)%Z ->
  positionToOffset (utf8 (before ++ after)) p allow = Some (List.length (utf8 before)).
Proof.
  intros Hu (above & last & -> & Hn & Ha & Hl & Hc) Hb. destruct p as [l c]. simpl in *.
  destruct (split_line after) as (tl & rest & -> & Htl & Hr).
  apply unicode_app in Hu as [Hu1 Hu2]. apply unicode_app in Hu1 as [Ua Ul]. apply unicode_app in Hu2 as [Ut Ur].
  replace ((above ++ last) ++ tl ++ rest) with (above ++ (last ++ tl) ++ rest) by (rewrite <- !app_assoc; reflexivity).
  rewrite cnt_app, (cnt_none last), Nat.add_0_r in Hl by auto.
  rewrite positionToOffset_line; auto; try lia.
  - subst c. rewrite measureUnits_inside by (auto; now apply unicode_app). simpl.
    rewrite utf8_app, app_length. reflexivity.
  - now apply unicode_app.
  - rewrite in_app_iff. tauto.
Qed.

Lemma lf_position_exists before : exists p, lf_position before p /\ (0 <= p_line p)%Z /\ (0 <= p_char p)%Z.
Proof.
  destruct (split_last before) as (above & last & -> & Hn & Ha).
  exists (LPos (Z.of_nat (cnt (above ++ last))) (Z.of_nat (u16len last))). split; [|simpl; lia].
  exists above, last. auto.
Qed.

Lemma split_last_unique (a1 l1 a2 l2 : text) : a1 ++ l1 = a2 ++ l2 -> ~ In LF l1 -> ~ In LF l2 ->
  (a1 = [] \/ exists a, a1 = a ++ [LF]) -> (a2 = [] \/ exists a, a2 = a ++ [LF]) -> a1 = a2 /\ l1 = l2.
Proof.
  intros E N1 N2 H1 H2.
  assert (L : List.length a1 = List.length a2).
  { destruct (Nat.lt_trichotomy (List.length a1) (List.length a2)) as [L|[L|L]]; auto; exfalso.
    - destruct H2 as [->|[a ->]]; [simpl in L; lia|].
      apply N1. rewrite app_length in L. simpl in L.
      assert (K : nth_error (a1 ++ l1) (List.length a) = Some LF).
      { rewrite E, <- app_assoc, nth_error_app2, Nat.sub_diag by lia. reflexivity. }
      rewrite nth_error_app2 in K by lia. eapply nth_error_In; eauto.
    - destruct H1 as [->|[a ->]]; [simpl in L; lia|].
      apply N2. rewrite app_length in L. simpl in L.
      assert (K : nth_error (a2 ++ l2) (List.length a) = Some LF).
      { rewrite <- E, <- app_assoc, nth_error_app2, Nat.sub_diag by lia. reflexivity. }
      rewrite nth_error_app2 in K by lia. eapply nth_error_In; eauto. }
  apply app_inj_tail_iff || idtac.
  assert (a1 = a2).
  { rewrite <- (firstn_length_app a1 l1), <- (firstn_length_app a2 l2), E, L. reflexivity. }
  subst. split; auto. eapply app_inv_head; eauto.
Qed.

Lemma lf_position_fun before p q : lf_position before p -> lf_position before q -> p = q.
Proof.
  intros (a1 & l1 & E1 & N1 & H1 & L1 & C1) (a2 & l2 & E2 & N2 & H2 & L2 & C2).
  destruct (split_last_unique a1 l1 a2 l2) as [-> ->]; auto; [congruence|].
  destruct p, q; simpl in *; f_equal; lia.
Qed.

(** the line [l] of a document *)
Lemma nth_line d l : l <= cnt d ->
  exists above line rest, d = above ++ line ++ rest /\ (above = [] \/ exists a, above = a ++ [LF]) /\
    ~ In LF line /\ (rest = [] \/ exists r, rest = LF :: r) /\ cnt above = l.
Proof.
  revert l. induction d as [|x d IH]; intros l Hl.
  - exists [], [], []. simpl in *. repeat split; auto. lia.
  - destruct (N.eq_dec x LF) as [->|Hx].
    + rewrite count_occ_cons_eq in Hl by auto. destruct l as [|l].
      * exists [], [], (LF :: d). repeat split; eauto.
      * destruct (IH l) as (above & line & rest & -> & Ha & Hn & Hr & Hc); [lia|].
        exists (LF :: above), line, rest. repeat split; auto.
        -- right. destruct Ha as [->|[a ->]]; [exists []; reflexivity|exists (LF :: a); reflexivity].
        -- rewrite count_occ_cons_eq by auto. lia.
    + rewrite count_occ_cons_neq in Hl by auto. destruct (IH l Hl) as (above & line & rest & -> & Ha & Hn & Hr & Hc).
      destruct Ha as [->|[a ->]].
      * simpl in Hc. exists [], (x :: line), rest. repeat split; auto. intros [|]; auto.
      * exists (x :: a ++ [LF]), line, rest. repeat split; auto.
        -- right. now exists (x :: a).
        -- rewrite count_occ_cons_neq by auto. auto.
Qed.

(** what an accepted position means *)
Lemma positionToOffset_strict d p o : unicode d -> (p_char p < 2147483648)%Z ->
  positionToOffset (utf8 d) p false = Some o ->
  exists before after, d = before ++ after /\ lf_position before p /\ o = List.length (utf8 before).
Proof.
  intros Hu Hb H. destruct p as [l c]. simpl in Hb.
  assert (Hl : (0 <= l)%Z /\ (0 <= c)%Z).
  { unfold positionToOffset in H. simpl in H. destruct (Z.ltb_spec l 0); [discriminate|].
    destruct (Z.ltb_spec c 0); [discriminate|]. auto. }
  destruct Hl as [Hl Hc].
  destruct (Z_lt_le_dec (Z.of_nat (cnt d)) l) as [L|L].
  { unfold positionToOffset in H. simpl in H. destruct (Z.ltb_spec l 0); [discriminate|].
    destruct (Z.ltb_spec c 0); [discriminate|]. rewrite line_start_none in H by auto. discriminate. }
  destruct (nth_line d (Z.to_nat l)) as (above & line & rest & -> & Ha & Hn & Hr & Hcnt); [lia|].
  apply unicode_app in Hu as [Ua Hu]. apply unicode_app in Hu as [Ul Ur].
  rewrite positionToOffset_line in H; auto; [|lia].
  destruct (column_cases line (Z.to_nat c)) as [(d1 & d2 & -> & E)|[E|(d1 & x & d2 & -> & Hx & E)]]; [lia| | |].
  - replace c with (Z.of_nat (u16len d1)) in * by lia. rewrite measureUnits_inside in H by auto. simpl in H.
    inversion H; subst o. exists (above ++ d1), (d2 ++ rest).
    split; [rewrite <- !app_assoc; reflexivity|]. split; [|rewrite utf8_app, app_length; reflexivity].
    exists above, d1. rewrite in_app_iff in Hn. repeat split; auto.
    simpl. rewrite cnt_app, (cnt_none d1) by tauto. lia.
  - rewrite measureUnits_past in H by (auto; lia). discriminate.
  - rewrite (measureUnits_mid d1 x d2 c) in H; auto; [discriminate|lia].
Qed.

(** ** offsetToPosition *)
Lemma count_lf_app x y : count_lf (x ++ y) = count_lf x + count_lf y.
Proof. unfold count_lf. rewrite filter_app, app_length. reflexivity. Qed.
Lemma count_lf_none w : Forall (fun c => is_lf c = false) w -> count_lf w = 0.
Proof. induction 1 as [|c w Hc Hw IH]; [reflexivity|]. unfold count_lf in *. simpl. rewrite Hc. auto. Qed.
Lemma count_lf_utf8 d : unicode d -> count_lf (utf8 d) = cnt d.
Proof.
  induction d as [|x d IH]; intros H; [reflexivity|]. inversion H; subst. rewrite utf8_cons, count_lf_app, IH by auto.
  destruct (N.eq_dec x LF) as [->|Hx].
  - rewrite count_occ_cons_eq by auto. reflexivity.
  - rewrite count_occ_cons_neq, count_lf_none by (auto using utf8_char_no_lf). reflexivity.
Qed.

Lemma after_last_no_lf w s acc : Forall (fun c => is_lf c = false) w ->
  after_last_lf (w ++ s) acc = after_last_lf s (rev w ++ acc).
Proof.
  revert acc. induction w as [|c w IH]; intros acc H; [reflexivity|]. inversion H; subst. simpl. rewrite H2, IH by auto.
  rewrite <- app_assoc. reflexivity.
Qed.

Lemma after_last_lf_utf8 above last acc : unicode above -> unicode last -> ~ In LF last ->
  (exists a, above = a ++ [LF]) -> after_last_lf (utf8 (above ++ last)) acc = utf8 last.
Proof.
  intros Ua Ul Hn. revert acc. induction above as [|x d IH]; intros acc Ha.
  - destruct Ha as [a Ha]. destruct a; discriminate.
  - inversion Ua; subst. simpl app. rewrite utf8_cons. destruct (N.eq_dec x LF) as [->|Hx].
    + rewrite utf8_char_lf. simpl app. cbn [after_last_lf]. simpl is_lf. cbv iota.
      destruct d as [|y d].
      * simpl app. rewrite <- (app_nil_r (utf8 last)), after_last_no_lf by (now apply utf8_no_lf).
        simpl. rewrite !app_nil_r, rev_involutive. reflexivity.
      * apply IH; auto. destruct Ha as [a Ha]. destruct a as [|z a]; inversion Ha; subst. eauto.
    + rewrite after_last_no_lf by (now apply utf8_char_no_lf). apply IH; auto.
      destruct Ha as [a Ha]. destruct a as [|z a]; inversion Ha; subst; [now elim Hx|eauto].
Qed.

Lemma offsetToPosition_utf8 before after : unicode (before ++ after) ->
  lf_position before (offsetToPosition (utf8 (before ++ after)) (List.length (utf8 before))).
Proof.
  intros Hu. apply unicode_app in Hu as [Hu _].
  unfold offsetToPosition. rewrite utf8_app, app_length, Nat.min_r, firstn_length_app by lia.
  rewrite count_lf_utf8 by auto.
  destruct (split_last before) as (above & last & -> & Hn & Ha). apply unicode_app in Hu as [Ua Ul].
  exists above, last. repeat split; auto. simpl. f_equal.
  destruct Ha as [->|Ha].
  - simpl app. rewrite <- (app_nil_r (utf8 last)), after_last_no_lf by (now apply utf8_no_lf). simpl.
    rewrite app_nil_r, rev_involutive. now apply lspLength_utf8.
  - rewrite after_last_lf_utf8 by auto. now apply lspLength_utf8.
Qed.

(** ** in bounds, for all byte strings *)
Lemma measureUnits_bound s n : fst (measureUnits s n) <= List.length s.
Proof.
  unfold measureUnits. destruct (to_int32 n <=? 0)%Z; [simpl; lia|].
  destruct (measure_loop _ _ _) as [[v u] r].
  destruct (Nat.ltb_spec (List.length s) r); simpl; lia.
Qed.

Lemma positionToOffset_bound s p allow o : positionToOffset s p allow = Some o -> o <= List.length s.
Proof.
  unfold positionToOffset. destruct (p_line p <? 0)%Z; [discriminate|]. destruct (p_char p <? 0)%Z; [discriminate|].
  destruct (line_start s 0 (p_line p)) as [st|] eqn:E; [|discriminate].
  apply line_start_bound in E.
  pose proof (measureUnits_bound (take_until_lf (skipn st s)) (p_char p)) as B.
  destruct (measureUnits _ _) as [n v]. simpl in B. pose proof (take_until_length (skipn st s)) as T.
  rewrite skipn_length in T.
  destruct (negb v && negb allow); [discriminate|]. intros H. inversion H. lia.
Qed.

(** ** LSP positions in a text without lone carriage returns *)
Lemma position_from_lf before after l c : no_lone_cr (before ++ after) ->
  position_from before after l c =
  match split_last before with _ =>
    fold_left (fun lc x => if N.eqb x LF then (S (fst lc), 0) else (fst lc, snd lc + u16 x)) before (l, c) end.
Proof.
  revert l c. induction before as [|x d IH]; intros l c H; [reflexivity|]. simpl.
  assert (H' : no_lone_cr (d ++ after)).
  { intros u v E. apply (H (x :: u) v). simpl. now rewrite E. }
  unfold ends_line. destruct (N.eqb_spec x LF) as [->|Hx]; simpl.
  - apply IH; auto.
  - destruct (N.eqb_spec x CR) as [->|Hc]; simpl.
    + specialize (H [] (d ++ after) eq_refl). rewrite H. simpl. apply IH; auto.
    + apply IH; auto.
Qed.

Lemma fold_no_lf last l c : ~ In LF last ->
  fold_left (fun lc x => if N.eqb x LF then (S (fst lc), 0) else (fst lc, snd lc + u16 x)) last (l, c)
  = (l, c + u16len last).
Proof.
  revert c. induction last as [|x d IH]; intros c H; simpl.
  - unfold u16len. simpl. f_equal. lia.
  - destruct (N.eqb_spec x LF) as [->|Hx]; [elim H; now left|].
    rewrite IH by (intros Hi; apply H; now right). rewrite u16len_cons. f_equal. lia.
Qed.

Lemma fold_line d l c : 
  fst (fold_left (fun lc x => if N.eqb x LF then (S (fst lc), 0) else (fst lc, snd lc + u16 x)) d (l, c)) = l + cnt d.
Proof.
  revert l c. induction d as [|x d IH]; intros l c; simpl fold_left; [simpl; lia|].
  destruct (N.eqb_spec x LF) as [->|Hx].
  - rewrite count_occ_cons_eq by auto. rewrite IH. simpl. lia.
  - rewrite count_occ_cons_neq by auto. apply IH.
Qed.

Lemma position_lf before after : no_lone_cr (before ++ after) -> lf_position before (position before after).
Proof.
  intros H. unfold position. rewrite position_from_lf by auto.
  destruct (split_last before) as (above & last & E & Hn & Ha).
  exists above, last. split; [auto|]. split; [auto|]. split; [auto|].
  rewrite E. rewrite fold_left_app.
  destruct Ha as [->|[a ->]].
  - simpl. rewrite fold_no_lf by auto. simpl. rewrite cnt_none by auto. auto.
  - rewrite fold_left_app. pose proof (fold_line a 0 0) as F.
    destruct (fold_left _ a (0,0)) as [l c]. simpl fst in F. simpl fold_left.
    rewrite fold_no_lf by auto. simpl. subst l.
    rewrite !cnt_app, (cnt_none last) by auto. simpl. split; f_equal; lia.
Qed.

(** ** applyChange *)
Lemma applyChange_edit d c d' : unicode d -> no_lone_cr d -> client_edit d c d' ->
  applyChange (utf8 d) c = (true, utf8 d') /\ unicode d'.
Proof.
  intros Hu Hcr H. destruct H as [d rl t Ht|before mid after rl t Ht Hs He Hrl].
  - split; auto.
  - assert (P1 := position_lf before (mid ++ after) Hcr).
    assert (P2 : lf_position (before ++ mid) (position (before ++ mid) after)).
    { apply position_lf. now rewrite <- app_assoc. }
    unfold applyChange. simpl c_range. cbv iota.
    rewrite (position_inside before (mid ++ after) _ false); auto; [|destruct Hs as [_ [_ ?]]; auto].
    unfold inferFinalNewline at 1.
    assert (Hu2 : unicode ((before ++ mid) ++ after)) by (now rewrite <- app_assoc).
    replace (utf8 (before ++ mid ++ after)) with (utf8 ((before ++ mid) ++ after)) by (now rewrite app_assoc).
    rewrite (position_inside (before ++ mid) after _ false); auto; [|destruct He as [_ [_ ?]]; auto].
    unfold inferFinalNewline. rewrite (utf8_app before mid), app_length.
    destruct (Nat.ltb_spec (List.length (utf8 before) + List.length (utf8 mid)) (List.length (utf8 before))); [lia|].
    rewrite !utf8_app. rewrite <- !app_assoc. rewrite firstn_length_app, !skipn_length_app.
    replace (List.length (utf8 before) + List.length (utf8 mid) - List.length (utf8 before)) with (List.length (utf8 mid)) by lia.
    rewrite firstn_length_app.
    apply unicode_app in Hu as [Ub Hu]. apply unicode_app in Hu as [Um Ua].
    rewrite lspLength_utf8 by auto. simpl c_rangeLength. simpl c_text.
    replace (skipn (List.length (utf8 before) + List.length (utf8 mid)) (utf8 before ++ utf8 mid ++ utf8 after)) with (utf8 after).
    2:{ rewrite app_assoc, <- app_length, skipn_length_app. reflexivity. }
    split; [|apply unicode_app; split; auto; apply unicode_app; auto].
    destruct Hrl as [->| ->]; [reflexivity|]. rewrite Z.eqb_refl. reflexivity.
Qed.

Lemma applyChanges_edits (P : text -> Prop) d cs d' : (forall t, P t -> no_lone_cr t) -> unicode d -> P d -> client_edits P d cs d' ->
  applyChanges (utf8 d) cs = Some (utf8 d') /\ unicode d' /\ P d'.
Proof.
  intros HP Hu Hd H. induction H as [d|d c d1 cs d2 He Hd1 Hes IH]; [auto|].
  destruct (applyChange_edit d c d1) as [E Hu1]; auto. simpl. rewrite E. auto.
Qed.

(** ** maps *)
Lemma lookup_remove {A} f g (m : list (bytes * A)) : lookup g (remove f m) = if bytes_eqb f g then None else lookup g m.
Proof.
  induction m as [|[k v] m IH]; simpl; [now destruct (bytes_eqb f g)|].
  destruct (bytes_eqb f k) eqn:E; simpl.
  - rewrite IH. destruct (bytes_eqb f g) eqn:Eg; auto.
    destruct (bytes_eqb g k) eqn:Ek; auto. apply bytes_eqb_spec in E. apply bytes_eqb_spec in Ek. subst.
    rewrite (proj2 (bytes_eqb_spec k k) eq_refl) in Eg. discriminate.
  - destruct (bytes_eqb g k) eqn:Ek; auto.
    destruct (bytes_eqb f g) eqn:Eg; auto. apply bytes_eqb_spec in Eg. apply bytes_eqb_spec in Ek. subst.
    rewrite (proj2 (bytes_eqb_spec k k) eq_refl) in E. discriminate.
Qed.

Lemma bytes_eqb_refl f : bytes_eqb f f = true.
Proof. now apply bytes_eqb_spec. Qed.

Lemma bytes_eqb_sym f g : bytes_eqb f g = bytes_eqb g f.
Proof.
  destruct (bytes_eqb f g) eqn:E; destruct (bytes_eqb g f) eqn:E2; auto.
  - apply bytes_eqb_spec in E. subst. rewrite bytes_eqb_refl in E2. discriminate.
  - apply bytes_eqb_spec in E2. subst. rewrite bytes_eqb_refl in E. discriminate.
Qed.

Lemma lookup_insert {A} f (v : A) g m : lookup g (insert f v m) = if bytes_eqb f g then Some v else lookup g m.
Proof.
  unfold insert. simpl. rewrite (bytes_eqb_sym g f). destruct (bytes_eqb f g) eqn:E; auto. rewrite lookup_remove, E. auto.
Qed.

(** ** what a successful range change means *)
Lemma back_app s c : back (s ++ [c]) = Some c.
Proof. unfold back. rewrite rev_app_distr. reflexivity. Qed.

Lemma infer_spec d p i s : unicode d -> (p_char p < 2147483648)%Z ->
  inferFinalNewline (positionToOffset (utf8 d) p false) (utf8 d) p = (Some i, s) ->
  exists d1 before after, s = utf8 d1 /\ unicode d1 /\ d1 = before ++ after /\ lf_position before p /\
    i = List.length (utf8 before) /\
    (d1 = d \/ (d1 = d ++ [LF] /\ before = d1 /\ p = LPos (Z.of_nat (cnt d) + 1) 0)).
Proof.
  intros Hu Hb. unfold inferFinalNewline.
  destruct (positionToOffset (utf8 d) p false) as [o|] eqn:E.
  - intros H. inversion H; subst. destruct (positionToOffset_strict d p i Hu Hb E) as (before & after & -> & Hp & ->).
    exists (before ++ after), before, after. repeat split; auto.
  - destruct (match back (utf8 d) with Some c => is_lf c | None => false end); [discriminate|].
    destruct (Z.eqb_spec (p_char p) 0) as [Hc|]; [|discriminate]. simpl negb. cbv iota.
    rewrite count_lf_utf8 by auto.
    destruct (Z.eqb_spec (p_line p) (Z.of_nat (cnt d) + 1)) as [Hl|]; [|discriminate]. simpl negb. cbv iota.
    intros H. inversion H; subst. exists (d ++ [LF]), (d ++ [LF]), [].
    rewrite utf8_app, app_nil_r. split; [reflexivity|].
    assert (Hu1 : unicode (d ++ [LF])) by (apply unicode_app; split; auto; repeat constructor).
    split; auto. split; auto. split.
    + exists (d ++ [LF]), []. rewrite app_nil_r. repeat split; auto; [right; eauto|].
      rewrite cnt_app. simpl. lia.
    + split; [rewrite app_length; reflexivity|]. right. repeat split; auto. destruct p; simpl in *; f_equal; lia.
Qed.

Lemma infer_after_lf d p i s : unicode d -> (p_char p < 2147483648)%Z ->
  inferFinalNewline (positionToOffset (utf8 (d ++ [LF])) p false) (utf8 (d ++ [LF])) p = (Some i, s) ->
  exists before after, s = utf8 (d ++ [LF]) /\ d ++ [LF] = before ++ after /\ lf_position before p /\
    i = List.length (utf8 before).
Proof.
  intros Hu Hb. assert (Hu1 : unicode (d ++ [LF])) by (apply unicode_app; split; auto; repeat constructor).
  unfold inferFinalNewline.
  destruct (positionToOffset (utf8 (d ++ [LF])) p false) as [o|] eqn:E.
  - intros H. inversion H; subst. destruct (positionToOffset_strict _ p i Hu1 Hb E) as (before & after & E1 & Hp & ->).
    exists before, after. auto.
  - rewrite utf8_app. change (utf8 [LF]) with ["010"%char]. rewrite back_app. simpl. discriminate.
Qed.

Lemma prefix_order (b1 a1 b2 a2 : text) : unicode (b1 ++ a1) -> b1 ++ a1 = b2 ++ a2 ->
  List.length (utf8 b1) <= List.length (utf8 b2) -> exists mid, b2 = b1 ++ mid /\ a1 = mid ++ a2.
Proof.
  revert b2. induction b1 as [|x b1 IH]; intros b2 Hu E L.
  - exists b2. auto.
  - inversion Hu as [|? ? Hx Hb]; subst. destruct b2 as [|y b2].
    + exfalso. destruct (utf8_char_shape x Hx) as (c & w & Ex & _). rewrite utf8_cons, Ex in L. simpl in L. lia.
    + simpl in E. inversion E; subst. destruct (IH b2) as (mid & -> & ->); auto.
      * rewrite !utf8_cons, !app_length in L. lia.
      * exists mid. auto.
Qed.

Lemma applyChange_sound d st en rl t r : unicode d ->
  (p_char st < 2147483648)%Z -> (p_char en < 2147483648)%Z ->
  applyChange (utf8 d) (Change (Some (st, en)) rl (utf8 t)) = (true, r) ->
  exists d1 before mid after,
    (d1 = d \/ (d1 = d ++ [LF] /\
       (st = LPos (Z.of_nat (cnt d) + 1) 0 \/ en = LPos (Z.of_nat (cnt d) + 1) 0))) /\
    d1 = before ++ mid ++ after /\ lf_position before st /\ lf_position (before ++ mid) en /\
    (rl = None \/ rl = Some (Z.of_nat (u16len mid))) /\ r = utf8 (before ++ t ++ after).
Proof.
  intros Hu Hs He. unfold applyChange. simpl c_range. cbv iota.
  destruct (inferFinalNewline (positionToOffset (utf8 d) st false) (utf8 d) st) as [si s1] eqn:E1.
  destruct si as [i|]; [|discriminate].
  apply infer_spec in E1 as (d1 & b1 & a1 & -> & Hu1 & Ed1 & P1 & -> & Hd1); auto.
  destruct (inferFinalNewline (positionToOffset (utf8 d1) en false) (utf8 d1) en) as [ei s2] eqn:E2.
  destruct ei as [j|]; [|discriminate].
  assert (K : exists d2 b2 a2, s2 = utf8 d2 /\ unicode d2 /\ d2 = b2 ++ a2 /\ lf_position b2 en /\
    j = List.length (utf8 b2) /\ (exists x, d2 = b1 ++ x) /\
    (d2 = d \/ (d2 = d ++ [LF] /\ (st = LPos (Z.of_nat (cnt d) + 1) 0 \/ en = LPos (Z.of_nat (cnt d) + 1) 0)))).
  { destruct Hd1 as [Hd1|(Hd1 & Eb & Est)].
    - rewrite Hd1 in E2. apply infer_spec in E2 as (d2 & b2 & a2 & -> & Hu2 & Ed2 & P2 & -> & Hd2); auto.
      exists d2, b2, a2. repeat split; auto.
      + destruct Hd2 as [->|(-> & _)]; [exists a1; congruence|exists (a1 ++ [LF])]. rewrite <- Hd1, Ed1, <- app_assoc. reflexivity.
      + destruct Hd2 as [->|(-> & _ & ->)]; auto.
    - rewrite Hd1 in E2. apply infer_after_lf in E2 as (b2 & a2 & -> & Ed2 & P2 & ->); auto.
      exists (d ++ [LF]), b2, a2. rewrite <- Hd1 in *. repeat split; auto. exists a1. auto. }
  clear E2. destruct K as (d2 & b2 & a2 & -> & Hu2 & Ed2 & P2 & -> & [x Ex] & Hd2).
  destruct (Nat.ltb_spec (List.length (utf8 b2)) (List.length (utf8 b1))) as [|L]; [discriminate|].
  rewrite Ex in Hu2.
  destruct (prefix_order b1 x b2 a2) as (mid & -> & ->); auto; [congruence|].
  intros H. rewrite Ex in H. clear Ed2.
  apply unicode_app in Hu2 as [Ub Hu2]. apply unicode_app in Hu2 as [Um Ua].
  rewrite !utf8_app, app_length in H.
  replace (List.length (utf8 b1) + List.length (utf8 mid) - List.length (utf8 b1)) with (List.length (utf8 mid)) in H by lia.
  rewrite firstn_length_app, skipn_length_app, firstn_length_app in H.
  rewrite lspLength_utf8 in H by auto.
  replace (skipn (List.length (utf8 b1) + List.length (utf8 mid)) (utf8 b1 ++ utf8 mid ++ utf8 a2)) with (utf8 a2) in H.
  2:{ rewrite app_assoc, <- app_length, skipn_length_app. reflexivity. }
  exists d2, b1, mid, a2. split; [auto|]. split; [auto|]. split; [auto|]. split; [auto|].
  simpl c_rangeLength in H. simpl c_text in H. destruct rl as [z|].
  - destruct (Z.eqb_spec (Z.of_nat (u16len mid)) z); simpl in H; [|discriminate].
    inversion H. rewrite !utf8_app. split; auto. right. congruence.
  - inversion H. rewrite !utf8_app. auto.
Qed.

(** ** the controller *)
Lemma getDraft_add f v c st g :
  getDraft g (snd (addDraft f v c st)) =
  if bytes_eqb f g then Some (Draft c (updateVersion (match lookup f st with Some d => dr_version d | None => [] end) v))
  else getDraft g st.
Proof. unfold getDraft, addDraft. simpl. apply lookup_insert. Qed.

Lemma getDraft_remove f st g : getDraft g (removeDraft f st) = if bytes_eqb f g then None else getDraft g st.
Proof. apply lookup_remove. Qed.

Section Ctl.
Variable A : Type.
Variable analyse : bytes -> A.

(** add the draft and analyse it: always succeeds *)
Lemma onAdd f v text s :
  exists t, (let '(_, ds) := addDraft f (encodeVersion v) text (drafts A s) in
             actOnDocumentAdd A analyse f v (CState A ds (tus A s)))
    = Ok (CState A (snd (addDraft f (encodeVersion v) text (drafts A s))) (insert f t (tus A s)),
          [Pub A f v (Some t)]) /\ t = TU A text (analyse text).
Proof.
  eexists. split; [|reflexivity].
  destruct (addDraft f (encodeVersion v) text (drafts A s)) as [v' ds] eqn:E.
  assert (G := getDraft_add f (encodeVersion v) text (drafts A s) f). rewrite E, bytes_eqb_refl in G. simpl in G.
  unfold actOnDocumentAdd. cbn [drafts]. rewrite G. reflexivity.
Qed.

Lemma onOpen f v text s :
  exists t, onNotification A analyse (DidOpen f v text) s
    = Ok (CState A (snd (addDraft f (encodeVersion v) text (drafts A s))) (insert f t (tus A s)),
          [Pub A f v (Some t)]) /\ t = TU A text (analyse text).
Proof. exact (onAdd f v text s). Qed.
Lemma onChange f v cs d text s : getDraft f (drafts A s) = Some d -> applyChanges (dr_contents d) cs = Some text ->
  exists t, onNotification A analyse (DidChange f v cs) s
    = Ok (CState A (snd (addDraft f (encodeVersion v) text (drafts A s))) (insert f t (tus A s)),
          [Pub A f v (Some t)]) /\ t = TU A text (analyse text).
Proof. intros G E. unfold onNotification. rewrite G, E. exact (onAdd f v text s). Qed.

Definition snapshot (s : cstate A) : Prop :=
  forall f, lookup f (tus A s) =
    option_map (fun d => TU A (dr_contents d) (analyse (dr_contents d))) (getDraft f (drafts A s)).

Lemma onNotification_ok n s : exists s' p, onNotification A analyse n s = Ok (s', p).
Proof.
  destruct n as [f v t|f v cs|f]; unfold onNotification.
  - destruct (onAdd f v t s) as (u & -> & _). eauto.
  - destruct (getDraft f (drafts A s)) as [d|]; [|eauto].
    destruct (applyChanges (dr_contents d) cs) as [code|]; [|destruct (removeDocument A f s); eauto].
    destruct (onAdd f v code s) as (u & -> & _). eauto.
  - destruct (removeDocument A f s); eauto.
Qed.

Lemma onNotification_snapshot n s s' p : snapshot s -> onNotification A analyse n s = Ok (s', p) -> snapshot s'.
Proof.
  intros H E.
  assert (Hadd : forall f v t, onNotification A analyse n s = Ok (CState A (snd (addDraft f (encodeVersion v) t (drafts A s)))
     (insert f (TU A t (analyse t)) (tus A s)), [Pub A f v (Some (TU A t (analyse t)))]) -> snapshot s').
  { intros f v t E1. rewrite E1 in E.
    match type of E with Ok (?x, _) = _ => assert (Es : s' = x) by congruence end. rewrite Es. intros g. cbn [drafts tus]. rewrite getDraft_add, lookup_insert.
    destruct (bytes_eqb f g); [reflexivity|apply H]. }
  assert (Hrm : forall f, onNotification A analyse n s = Ok (removeDocument A f s) -> snapshot s').
  { intros f E1. rewrite E1 in E. inversion E; subst. intros g. simpl. rewrite getDraft_remove, lookup_remove.
    destruct (bytes_eqb f g); [reflexivity|apply H]. }
  destruct n as [f v t|f v cs|f].
  - apply (Hadd f v t). unfold onNotification. destruct (onAdd f v t s) as (u & -> & ->). reflexivity.
  - unfold onNotification in *. destruct (getDraft f (drafts A s)) as [d|] eqn:Ed; [|inversion E; subst; auto].
    destruct (applyChanges (dr_contents d) cs) as [code|] eqn:Ec.
    + apply (Hadd f v code). destruct (onAdd f v code s) as (u & -> & ->). reflexivity.
    + now apply (Hrm f).
  - now apply (Hrm f).
Qed.

Lemma onNotifications_app ns1 ns2 s : onNotifications A analyse (ns1 ++ ns2) s =
  let* (s1, p1) := onNotifications A analyse ns1 s in
  let* (s2, p2) := onNotifications A analyse ns2 s1 in Ok (s2, p1 ++ p2).
Proof.
  revert s. induction ns1 as [|n ns1 IH]; intros s; simpl.
  - destruct (onNotifications A analyse ns2 s) as [[s2 p2]| |]; reflexivity.
  - destruct (onNotification A analyse n s) as [[s1 p1]| |]; simpl; auto.
    rewrite IH. destruct (onNotifications A analyse ns1 s1) as [[s2 p2]| |]; simpl; auto.
    destruct (onNotifications A analyse ns2 s2) as [[s3 p3]| |]; simpl; auto. rewrite app_assoc. reflexivity.
Qed.

Lemma onNotifications_ok ns s : exists s' p, onNotifications A analyse ns s = Ok (s', p).
Proof.
  revert s. induction ns as [|n ns IH]; intros s; simpl; [eauto|].
  destruct (onNotification_ok n s) as (s1 & p1 & ->). simpl. destruct (IH s1) as (s2 & p2 & ->). simpl. eauto.
Qed.

Lemma onNotifications_snapshot ns s s' p : snapshot s -> onNotifications A analyse ns s = Ok (s', p) -> snapshot s'.
Proof.
  revert s p. induction ns as [|n ns IH]; intros s p H E; simpl in E; [inversion E; now subst|].
  destruct (onNotification A analyse n s) as [[s1 p1]| |] eqn:E1; simpl in E; try discriminate.
  destruct (onNotifications A analyse ns s1) as [[s2 p2]| |] eqn:E2; simpl in E; try discriminate.
  inversion E; subst. apply (IH s1 p2); auto. apply (onNotification_snapshot n s s1 p1); auto.
Qed.

Lemma snapshot_init : snapshot (cinit A).
Proof. intros f. reflexivity. Qed.

(** ** synchronisation *)
Lemma sync_step (P : text -> Prop) docs ns docs' :
  (forall t, P t -> no_lone_cr t) ->
  client_history P docs ns docs' ->
  (forall f d, docs f = Some d -> unicode d /\ P d) ->
  forall s, in_sync (drafts A s) docs ->
  exists s' pubs, onNotifications A analyse ns s = Ok (s', pubs) /\ in_sync (drafts A s') docs'.
Proof.
  intros HP H. induction H as [docs|docs f v t ns docs' Hu Ht H IH|docs f v cs d d' ns docs' Hd Hes H IH|docs f ns docs' H IH];
    intros Hok s Hs; cbn [onNotifications].
  - exists s, []. auto.
  - destruct (onOpen f v (utf8 t) s) as (u & E & _). rewrite E. cbn [bind].
    destruct (IH) with (s := CState A (snd (addDraft f (encodeVersion v) (utf8 t) (drafts A s))) (insert f u (tus A s)))
      as (s' & pubs & E' & Hs').
    + intros g d. unfold set_document. destruct (bytes_eqb f g); [|apply Hok]. intros E1. inversion E1; subst. auto.
    + intros g. cbn [drafts]. rewrite getDraft_add. unfold set_document. destruct (bytes_eqb f g); [reflexivity|apply Hs].
    + rewrite E'. simpl. eauto.
  - destruct (Hok f d Hd) as [Hud Hpd].
    destruct (applyChanges_edits P d cs d') as (Ea & Hu' & Hp'); auto.
    assert (G := Hs f). rewrite Hd in G. destruct (getDraft f (drafts A s)) as [dr|] eqn:Gd; [|discriminate].
    simpl in G. assert (G' : dr_contents dr = utf8 d) by congruence.
    destruct (onChange f v cs dr (utf8 d') s) as (u & E & _); [auto|congruence|]. rewrite E. cbn [bind].
    destruct (IH) with (s := CState A (snd (addDraft f (encodeVersion v) (utf8 d') (drafts A s))) (insert f u (tus A s)))
      as (s' & pubs & E' & Hs').
    + intros g d0. unfold set_document. destruct (bytes_eqb f g); [|apply Hok]. intros E1. inversion E1; subst. auto.
    + intros g. cbn [drafts]. rewrite getDraft_add. unfold set_document. destruct (bytes_eqb f g); [reflexivity|apply Hs].
    + rewrite E'. simpl. eauto.
  - destruct (IH) with (s := fst (removeDocument A f s)) as (s' & pubs & E' & Hs').
    + intros g d0. unfold set_document. destruct (bytes_eqb f g); [discriminate|apply Hok].
    + intros g. change (drafts A (fst (removeDocument A f s))) with (removeDraft f (drafts A s)). rewrite getDraft_remove. unfold set_document. destruct (bytes_eqb f g); [reflexivity|apply Hs].
    + cbn [onNotification]. change (removeDocument A f s) with (fst (removeDocument A f s), [Pub A f None None]).
      cbn [bind]. rewrite E'. cbn [bind]. eauto.
Qed.

(** ** a failing change *)
Lemma applyChanges_fail t cs1 mid c cs2 :
  applyChanges t cs1 = Some mid -> fst (applyChange mid c) = false -> applyChanges t (cs1 ++ c :: cs2) = None.
Proof.
  revert t. induction cs1 as [|c1 cs1 IH]; intros t E F; simpl in *.
  - inversion E; subst. destruct (applyChange mid c) as [ok code]. simpl in F. now rewrite F.
  - destruct (applyChange t c1) as [ok code]. destruct ok; [|discriminate]. auto.
Qed.

(** ** interleavings *)
(** where the main thread is, against the sequential model *)
Definition linear (ns : list notification) (sp : cstate A * phase A) : Prop :=
  let '(s, ph) := sp in
  match ph with
  | Idle _ => exists s0 p, onNotifications A analyse ns (cinit A) = Ok (s0, p) /\ s = s0
  | Adding _ f => exists ns1 n s1 p1 d, ns = ns1 ++ [n] /\ onNotifications A analyse ns1 (cinit A) = Ok (s1, p1) /\
      tus A s = tus A s1 /\ getDraft f (drafts A s) = Some d /\
      (exists p, onNotification A analyse n s1 = Ok (CState A (drafts A s) (insert f (TU A (dr_contents d) (analyse (dr_contents d))) (tus A s)), p))
  | Inserting _ f t => exists ns1 n s1 p1, ns = ns1 ++ [n] /\ onNotifications A analyse ns1 (cinit A) = Ok (s1, p1) /\
      tus A s = tus A s1 /\
      (exists p, onNotification A analyse n s1 = Ok (CState A (drafts A s) (insert f t (tus A s)), p))
  | Erasing _ f => exists ns1 n s1 p1, ns = ns1 ++ [n] /\ onNotifications A analyse ns1 (cinit A) = Ok (s1, p1) /\
      tus A s = tus A s1 /\
      (exists p, onNotification A analyse n s1 = Ok (CState A (drafts A s) (remove f (tus A s)), p))
  end.

Lemma onNotifications_snoc ns1 n s1 p1 s2 p2 :
  onNotifications A analyse ns1 (cinit A) = Ok (s1, p1) -> onNotification A analyse n s1 = Ok (s2, p2) ->
  exists p, onNotifications A analyse (ns1 ++ [n]) (cinit A) = Ok (s2, p).
Proof. intros E1 E2. rewrite onNotifications_app, E1. simpl. rewrite E2. simpl. eauto. Qed.

Lemma started_snoc (es : list (event A)) e : started (es ++ [e]) = started es ++ started [e].
Proof. unfold started. apply flat_map_app. Qed.

Lemma mexec_linear es sp : mexec A analyse (cinit A, Idle A) es sp -> linear (started es) sp.
Proof.
  intros H. remember (cinit A, Idle A) as sp0 eqn:E0. induction H as [s|s es s1 e s2 H IH Hs]; subst.
  - simpl. exists (cinit A), []. auto.
  - specialize (IH eq_refl). rewrite started_snoc.
    destruct Hs as [f v text ds ts|f v cs ds ts G|f v cs d ds ts G Ec|f v cs d code ds ts G Ec|f ds ts|f d ds ts G|f t ds ts|f ds ts|f s ph].
    + destruct IH as (s0 & p & E & <-). simpl started.
      exists (started es), (DidOpen f v text), (CState A ds ts), p. eexists.
      split; [reflexivity|]. split; [exact E|]. split; [reflexivity|]. cbn [drafts]. rewrite getDraft_add, bytes_eqb_refl.
      split; [reflexivity|]. destruct (onAdd f v text (CState A ds ts)) as (u & E1 & ->).
      eexists. unfold onNotification. rewrite E1. reflexivity.
    + destruct IH as (s0 & p & E & <-). simpl started.
      destruct (onNotifications_snoc (started es) (DidChange f v cs) (CState A ds ts) p (CState A ds ts) [] E) as [p' E'].
      { unfold onNotification. cbn [drafts]. rewrite G. reflexivity. }
      exists (CState A ds ts), p'. auto.
    + destruct IH as (s0 & p & E & <-). simpl started.
      exists (started es), (DidChange f v cs), (CState A ds ts), p.
      split; [reflexivity|]. split; [exact E|]. split; [reflexivity|].
      eexists. unfold onNotification. cbn [drafts]. rewrite G, Ec. reflexivity.
    + destruct IH as (s0 & p & E & <-). simpl started.
      exists (started es), (DidChange f v cs), (CState A ds ts), p. eexists.
      split; [reflexivity|]. split; [exact E|]. split; [reflexivity|]. cbn [drafts]. rewrite getDraft_add, bytes_eqb_refl.
      split; [reflexivity|]. destruct (onAdd f v code (CState A ds ts)) as (u & E1 & ->).
      eexists. unfold onNotification. cbn [drafts]. rewrite G, Ec. cbn [drafts] in E1. rewrite E1. reflexivity.
    + destruct IH as (s0 & p & E & <-). simpl started.
      exists (started es), (DidClose f), (CState A ds ts), p.
      split; [reflexivity|]. split; [exact E|]. split; [reflexivity|].
      eexists. reflexivity.
    + destruct IH as (ns1 & n & s1 & p1 & d' & E & E1 & Et & Gd & p & E2). simpl started. rewrite app_nil_r.
      exists ns1, n, s1, p1. repeat split; auto. exists p. cbn [drafts] in Gd. rewrite G in Gd. inversion Gd; subst. exact E2.
    + destruct IH as (ns1 & n & s1 & p1 & E & E1 & Et & p & E2). simpl started. rewrite app_nil_r, E.
      destruct (onNotifications_snoc _ _ _ _ _ _ E1 E2) as [p' E'].
      eexists. exists p'. split; [exact E'|reflexivity].
    + destruct IH as (ns1 & n & s1 & p1 & E & E1 & Et & p & E2). simpl started. rewrite app_nil_r, E.
      destruct (onNotifications_snoc _ _ _ _ _ _ E1 E2) as [p' E'].
      eexists. exists p'. split; [exact E'|reflexivity].
    + simpl started. rewrite app_nil_r. exact IH.
Qed.

Lemma read_linear es f r sp : mexec A analyse (cinit A, Idle A) es sp -> mstep A analyse sp (Read A f r) sp ->
  exists ns1 s1 p1, onNotifications A analyse ns1 (cinit A) = Ok (s1, p1) /\ r = lookup f (tus A s1) /\
    (ns1 = started es \/ exists n, started es = ns1 ++ [n]) /\
    (snd sp = Idle A -> ns1 = started es).
Proof.
  intros H Hs. apply mexec_linear in H. destruct sp as [s ph].
  inversion Hs; subst. simpl in H. destruct ph.
  - destruct H as (s0 & p & E & ->). exists (started es), s0, p. auto.
  - destruct H as (ns1 & n & s1 & p1 & d & E & E1 & Et & _). exists ns1, s1, p1. rewrite Et.
    repeat split; eauto. discriminate.
  - destruct H as (ns1 & n & s1 & p1 & E & E1 & Et & _). exists ns1, s1, p1. rewrite Et.
    repeat split; eauto. discriminate.
  - destruct H as (ns1 & n & s1 & p1 & E & E1 & Et & _). exists ns1, s1, p1. rewrite Et.
    repeat split; eauto. discriminate.
Qed.
End Ctl.

(** ** versions *)
Lemma is_digit_spec c : is_digit c = true <-> (48 <= code c /\ code c <= 57)%N.
Proof. unfold is_digit. rewrite andb_true_iff, !N.leb_le. reflexivity. Qed.

Lemma adv_cons c r acc : is_digit c = true ->
  all_digits_value (c :: r) acc = all_digits_value r (acc * 10 + Z.of_N (code c - 48))%Z.
Proof. intros H. cbn [all_digits_value]. now rewrite H. Qed.

Lemma digits_string d :
  (forall p, all_digits_value (b (NilEmpty.string_of_uint d)) (Zpos p) = Some (Zpos (Pos.of_uint_acc d p))) /\
  all_digits_value (b (NilEmpty.string_of_uint d)) 0 = Some (Z.of_N (Pos.of_uint d)).
Proof.
  induction d as [|d [IH1 IH2]|d [IH1 IH2]|d [IH1 IH2]|d [IH1 IH2]|d [IH1 IH2]|d [IH1 IH2]|d [IH1 IH2]|d [IH1 IH2]|d [IH1 IH2]|d [IH1 IH2]];
    (split; [intros p|]); [reflexivity|reflexivity|..];
    cbn [NilEmpty.string_of_uint b list_ascii_of_string]; rewrite adv_cons by reflexivity;
    (match goal with |- context [(_ + Z.of_N ?n)%Z] => let n' := eval vm_compute in n in change n with n' end);
    cbn [Pos.of_uint_acc Pos.of_uint Z.of_N]; try rewrite Z.mul_0_l, Z.add_0_l; try rewrite Z.add_0_r.
  all: try (match goal with |- all_digits_value _ (Z.pos ?p * 10 + Z.pos ?k)%Z = _ =>
         replace (Z.pos p * 10 + Z.pos k)%Z with (Z.pos (k + 10 * p)) by lia end; apply IH1).
  all: try (match goal with |- all_digits_value _ (Z.pos ?p * 10)%Z = _ =>
         replace (Z.pos p * 10)%Z with (Z.pos (10 * p)) by lia end; apply IH1).
  all: try apply IH1; try apply IH2.
Qed.

Lemma string_of_uint_ne d : d <> Decimal.Nil -> NilZero.string_of_uint d = NilEmpty.string_of_uint d.
Proof. destruct d; auto. intros H. now elim H. Qed.

Lemma to_uint_nonnil p : Pos.to_uint p <> Decimal.Nil.
Proof. apply DecimalPos.Unsigned.to_uint_nonnil. Qed.

Lemma version_roundtrip z : (-9223372036854775808 <= z <= 9223372036854775807)%Z ->
  decodeVersion (encodeVersion (Some z)) = Some z.
Proof.
  intros Hz. unfold decodeVersion, encodeVersion, parse_int64.
  destruct z as [|p|p].
  - reflexivity.
  - simpl Z.to_int. cbn [NilZero.string_of_int]. rewrite string_of_uint_ne by apply to_uint_nonnil.
    pose proof (proj2 (digits_string (Pos.to_uint p))) as E.
    rewrite DecimalPos.Unsigned.of_to in E. simpl Z.of_N in E.
    destruct (b (NilEmpty.string_of_uint (Pos.to_uint p))) as [|c r] eqn:Eb.
    + inversion E.
    + destruct (Ascii.eqb_spec c "-").
      * subst c. simpl in E. discriminate.
      * rewrite E. destruct (Z.leb_spec (-9223372036854775808) (Z.pos p)); [|lia].
        destruct (Z.leb_spec (Z.pos p) 9223372036854775807); [reflexivity|lia].
  - simpl Z.to_int. cbn [NilZero.string_of_int]. rewrite string_of_uint_ne by apply to_uint_nonnil.
    pose proof (proj2 (digits_string (Pos.to_uint p))) as E.
    rewrite DecimalPos.Unsigned.of_to in E. simpl Z.of_N in E.
    cbn [b list_ascii_of_string]. change (list_ascii_of_string (NilEmpty.string_of_uint (Pos.to_uint p))) with (b (NilEmpty.string_of_uint (Pos.to_uint p))).
    rewrite Ascii.eqb_refl. rewrite E.
    destruct (b (NilEmpty.string_of_uint (Pos.to_uint p))) as [|c r] eqn:Eb; [inversion E|].
    change (- Z.pos p)%Z with (Z.neg p).
    destruct (Z.leb_spec (-9223372036854775808) (Z.neg p)); [|lia].
    destruct (Z.leb_spec (Z.neg p) 9223372036854775807); [reflexivity|lia].
Qed.

Lemma value_snoc w c : value (w ++ [c]) = (value w * 10 + Z.of_N (code c - 48))%Z.
Proof. unfold value. rewrite fold_left_app. reflexivity. Qed.

Lemma increment_digit v ds c : is_digit c = true -> c <> "9"%char ->
  increment (v ++ ds ++ [c]) = v ++ ds ++ [ascii_of_N (code c + 1)].
Proof.
  intros Hd Hc. unfold increment. rewrite app_assoc, back_app, Hd, rev_app_distr. simpl. rewrite Hd. simpl.
  destruct (Ascii.eqb_spec c "9"); [now elim Hc|]. simpl. rewrite rev_involutive, <- app_assoc. reflexivity.
Qed.

Lemma code_inj x y : code x = code y -> x = y.
Proof. intros H. rewrite <- (ascii_N_embedding x), <- (ascii_N_embedding y). unfold code in H. now rewrite H. Qed.

Lemma increment_larger v stem ds c : suffix_of v stem (ds ++ [c]) -> c <> "9"%char ->
  exists ds', suffix_of (increment v) stem ds' /\ value ds' = (value (ds ++ [c]) + 1)%Z.
Proof.
  intros (-> & Hd & Hs) Hc. apply Forall_app in Hd as [Hd Hdc]. inversion Hdc as [|? ? Hc1 _]; subst.
  rewrite increment_digit by (auto; now apply is_digit_spec).
  assert (code c <> 57)%N by (intros E; apply Hc; now apply code_inj).
  exists (ds ++ [ascii_of_N (code c + 1)]). split.
  - split; [reflexivity|]. split; auto. apply Forall_app. split; auto. constructor; [|constructor].
    rewrite code_ascii by lia. lia.
  - rewrite !value_snoc, code_ascii by lia. lia.
Qed.

Lemma increment_no_suffix v : suffix_of v v [] -> increment v = v ++ b "0".
Proof.
  intros (_ & _ & [->|(s & c & -> & Hc)]); [reflexivity|].
  unfold increment. rewrite back_app. destruct (is_digit c) eqn:E; [|reflexivity]. elim Hc. now apply is_digit_spec.
Qed.

Lemma unicode_check d :
  forallb (fun x => N.ltb x 0xD800 || (N.leb 0xE000 x && N.ltb x 0x110000)) d = true -> unicode d.
Proof.
  intros H. apply Forall_forall. intros x Hx. rewrite forallb_forall in H. specialize (H x Hx).
  apply orb_true_iff in H as [H|H]; [left; now apply N.ltb_lt|].
  apply andb_true_iff in H as [H1 H2]. right. split; [now apply N.leb_le|now apply N.ltb_lt].
Qed.

Lemma no_lone_cr_check d :
  (fix ok l := match l with [] => true | x :: r => (negb (N.eqb x CR) || match r with y :: _ => N.eqb y LF | [] => false end) && ok r end) d = true ->
  no_lone_cr d.
Proof.
  intros H before. revert d H. induction before as [|y before IH]; intros d H after ->; simpl in H.
  - apply andb_true_iff in H as [H _]. destruct after as [|z after]; [discriminate|].
    apply N.eqb_eq in H. now subst.
  - apply andb_true_iff in H as [_ H]. eapply IH; eauto.
Qed.
