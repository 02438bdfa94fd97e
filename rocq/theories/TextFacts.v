(** Proofs of the theorems stated in TextProps. *)
From Verif Require Import Base TextModel TextSpec TextProofs.

Lemma u16len_repeat n : u16len (List.repeat 97%N n) = n.
Proof. induction n as [|n IH]; [reflexivity|]. simpl repeat. rewrite u16len_cons, IH. reflexivity. Qed.
Lemma utf8_repeat n : List.length (utf8 (List.repeat 97%N n)) = n.
Proof. induction n as [|n IH]; [reflexivity|]. simpl repeat. rewrite utf8_cons, app_length, IH. reflexivity. Qed.
Lemma unicode_repeat n : unicode (List.repeat 97%N n).
Proof. apply Forall_forall. intros x H. apply repeat_spec in H. subst. left. reflexivity. Qed.
Lemma measureUnits_wrap s : measureUnits s 2147483648 = (0, false).
Proof. reflexivity. Qed.

Lemma C06_refuted_proof :
  exists before after, unicode (before ++ after) /\
    positionToOffset (utf8 (before ++ after)) (offsetToPosition (utf8 (before ++ after)) (List.length (utf8 before))) true
    <> Some (List.length (utf8 before)).
Proof.
  assert (K : exists n, Z.of_nat n = 2147483648%Z).
  { exists (Z.to_nat 2147483648). apply Z2Nat.id. discriminate. }
  destruct K as [n Hn].
  set (d := List.repeat 97%N n).
  assert (Hu : unicode (d ++ [])) by (rewrite app_nil_r; apply unicode_repeat).
  assert (Hlf : ~ In LF d) by (intros H; apply repeat_spec in H; discriminate).
  exists d, []. split; auto.
  pose proof (offsetToPosition_utf8 d [] Hu) as P.
  assert (Q : lf_position d (LPos 0 2147483648)).
  { exists [], d. repeat split; auto.
    - simpl. rewrite cnt_none by auto. reflexivity.
    - simpl. unfold d. rewrite u16len_repeat. auto. }
  rewrite (lf_position_fun _ _ _ P Q). rewrite !app_nil_r.
  assert (Hud : unicode d) by (now rewrite app_nil_r in Hu).
  rewrite (positionToOffset_line [] d []) with (l := 0%Z) (c := 2147483648%Z) (allow := true)
    || (replace (utf8 d) with (utf8 ([] ++ d ++ [])) at 1 by (now rewrite app_nil_r); rewrite positionToOffset_line);
    auto; try lia.
  - rewrite measureUnits_wrap. cbn [negb andb List.length utf8 flat_map Nat.add].
    unfold d. rewrite utf8_repeat. intros E. inversion E. lia.
  - constructor.
  - constructor.
Qed.

Lemma C06_partial_proof :
  forall before after allow, unicode (before ++ after) ->
    let code := utf8 (before ++ after) in
    let p := offsetToPosition code (List.length (utf8 before)) in
    (p_char p < 2147483648)%Z ->
    positionToOffset code p allow = Some (List.length (utf8 before)).
Proof.
  intros before after allow Hu code p Hb. apply position_inside; auto. now apply offsetToPosition_utf8.
Qed.

Lemma C06_in_bounds_proof :
  forall code p allow o, positionToOffset code p allow = Some o -> o <= List.length code.
Proof.
  exact positionToOffset_bound.
Qed.

Lemma C07_utf16_proof :
  forall before after, unicode (before ++ after) ->
    lf_position before (offsetToPosition (utf8 (before ++ after)) (List.length (utf8 before))).
Proof.
  exact offsetToPosition_utf8.
Qed.

Lemma C07_strict_proof :
  forall d p o, unicode d -> (p_char p < 2147483648)%Z ->
    (positionToOffset (utf8 d) p false = Some o <->
     exists before after, d = before ++ after /\ lf_position before p /\ o = List.length (utf8 before)).
Proof.
  intros d p o Hu Hb. split.
  - now apply positionToOffset_strict.
  - intros (before & after & -> & Hp & ->). now apply position_inside.
Qed.

Lemma C07_errors_proof :
  forall d p allow, unicode d ->
    (p_line p < 0 \/ p_char p < 0 \/ Z.of_nat (count_occ N.eq_dec d LF) < p_line p)%Z ->
    positionToOffset (utf8 d) p allow = None.
Proof.
  intros d p allow Hu H. unfold positionToOffset.
  destruct (Z.ltb_spec (p_line p) 0); [reflexivity|]. destruct (Z.ltb_spec (p_char p) 0); [reflexivity|].
  destruct H as [H|[H|H]]; [lia|lia|]. rewrite line_start_none; auto.
Qed.

Lemma C07_lenient_proof :
  forall above ln rest p, unicode (above ++ ln ++ rest) ->
    (above = [] \/ exists a, above = a ++ [LF]) -> ~ In LF ln -> (rest = [] \/ exists r, rest = LF :: r) ->
    p_line p = Z.of_nat (count_occ N.eq_dec above LF) -> (p_char p < 2147483648)%Z ->
    ((Z.of_nat (u16len ln) < p_char p)%Z ->
      positionToOffset (utf8 (above ++ ln ++ rest)) p true = Some (List.length (utf8 (above ++ ln)))) /\
    (forall l1 x l2, ln = l1 ++ x :: l2 -> u16 x = 2 -> p_char p = (Z.of_nat (u16len l1) + 1)%Z ->
      positionToOffset (utf8 (above ++ ln ++ rest)) p true = Some (List.length (utf8 (above ++ l1 ++ [x])))).
Proof.
  intros above ln rest [l c] Hu Ha Hn Hr Hl Hb. simpl in Hl, Hb. subst l.
  apply unicode_app in Hu as [Ua Hu]. apply unicode_app in Hu as [Ul Ur]. split.
  - simpl. intros Hc. rewrite positionToOffset_line; auto; [|lia].
    rewrite measureUnits_past by (auto; lia). simpl. rewrite utf8_app, app_length. reflexivity.
  - intros l1 x l2 -> Hx Hc. simpl in Hc. rewrite positionToOffset_line; auto; [|lia].
    rewrite (measureUnits_mid l1 x l2 c) by auto. simpl. rewrite !utf8_app, !app_length. reflexivity.
Qed.

Lemma C07_refuted_proof :
  (exists d before after p,
    unicode d /\ d = before ++ after /\ hd_error after = Some LF /\
    p_line p = p_line (position before after) /\ (p_char (position before after) < p_char p < 100)%Z /\
    fst (applyChange (utf8 d) (Change (Some (p, p)) None [])) = false) /\
  (exists d before after p,
    unicode d /\ d = before ++ CR :: LF :: after /\
    p_line p = p_line (position before (CR :: LF :: after)) /\
    (p_char (position before (CR :: LF :: after)) + 1 < p_char p < 100)%Z /\
    positionToOffset (utf8 d) p true <> Some (List.length (utf8 before))).
Proof.
  split.
  - exists [97; 10]%N, [97%N], [10%N], (LPos 0 5). repeat split; try reflexivity.
    repeat constructor.
  - exists [97; 13; 10]%N, [97%N], [], (LPos 0 5). repeat split; try reflexivity.
    + repeat constructor.
    + discriminate.
Qed.

Lemma C08_refuted_proof :
  forall (A : Type) (analyse : bytes -> A), ~ sync_claim A analyse unicode.
Proof.
  intros A analyse H.
  set (before := [97; 13; 98; 10]%N). set (after := [99; 10; 100; 101]%N).
  destruct (H [DidOpen (b "f") None (utf8 (before ++ after));
               DidChange (b "f") None [Change (Some (position before after, position before after)) None (utf8 [120]%N)]]
              (set_document (b "f") (Some (before ++ [120]%N ++ after)) (set_document (b "f") (Some (before ++ after)) no_documents)))
    as (s & pubs & E & S).
  - assert (Hu : forall d, forallb (fun x => N.ltb x 55296) d = true -> unicode d).
    { clear. intros d Hd. apply Forall_forall. intros x Hx. left. rewrite forallb_forall in Hd. now apply N.ltb_lt, Hd. }
    apply history_open; [now apply Hu..|].
    eapply history_change; [reflexivity| |apply history_nil].
    apply (edits_cons _ _ _ (before ++ [120]%N ++ after)); [|now apply Hu|apply edits_nil].
    change (before ++ after) with (before ++ [] ++ after).
    apply (edit_range before [] after None [120]%N); [now apply Hu|..|now left]; (split; split; vm_compute; congruence).
  - apply (f_equal (fun r => match r with Ok (s, _) => getDraft (b "f") (drafts A s) | _ => None end)) in E.
    specialize (S (b "f")). rewrite <- E in S. vm_compute in S. discriminate.
Qed.

Lemma C08_partial_proof :
  forall (A : Type) (analyse : bytes -> A), sync_claim A analyse no_lone_cr.
Proof.
  intros A analyse ns docs H. eapply (sync_step A analyse no_lone_cr); eauto.
  - intros f d E. discriminate.
  - intros f. reflexivity.
Qed.

Lemma C08_accepted_proof :
  forall d st en rl t r, unicode d -> unicode t ->
    (p_char st < 2147483648)%Z -> (p_char en < 2147483648)%Z ->
    applyChange (utf8 d) (Change (Some (st, en)) rl (utf8 t)) = (true, r) ->
    exists d1 before mid after,
      (d1 = d \/
       (d1 = d ++ [LF] /\ let eof := LPos (Z.of_nat (count_occ N.eq_dec d LF) + 1) 0 in st = eof \/ en = eof)) /\
      d1 = before ++ mid ++ after /\ lf_position before st /\ lf_position (before ++ mid) en /\
      (rl = None \/ rl = Some (Z.of_nat (u16len mid))) /\ r = utf8 (before ++ t ++ after).
Proof.
  intros d st en rl t r Hu _ Hs He E. now apply applyChange_sound with (1 := Hu) in E.
Qed.

Lemma C09_atomic_proof :
  forall (A : Type) (analyse : bytes -> A) s f v cs d, getDraft f (drafts A s) = Some d ->
    exists s' pubs, onNotification A analyse (DidChange f v cs) s = Ok (s', pubs) /\
      (forall g, g <> f -> getDraft g (drafts A s') = getDraft g (drafts A s) /\ lookup g (tus A s') = lookup g (tus A s)) /\
      ((exists t, applied (dr_contents d) cs t /\
          option_map dr_contents (getDraft f (drafts A s')) = Some t /\
          lookup f (tus A s') = Some (TU A t (analyse t)) /\
          pubs = [Pub A f v (Some (TU A t (analyse t)))]) \/
       ((forall t, ~ applied (dr_contents d) cs t) /\
          getDraft f (drafts A s') = None /\ lookup f (tus A s') = None /\ pubs = [Pub A f None None])).
Proof.
  intros A analyse s f v cs d G.
  assert (K : forall t cs r, applyChanges t cs = Some r <-> applied t cs r).
  { clear. intros t cs. revert t. induction cs as [|c cs IH]; intros t r; simpl.
    - split; [intros E; inversion E; constructor|intros E; inversion E; reflexivity].
    - split.
      + destruct (applyChange t c) as [ok t'] eqn:E. destruct ok; [|discriminate]. intros E2.
        econstructor; eauto. now apply IH.
      + intros E. inversion E as [|? ? t' ? ? E1 E2]; subst. rewrite E1. now apply IH. }
  assert (N : forall g, g <> f -> bytes_eqb f g = false).
  { intros g Hg. destruct (bytes_eqb f g) eqn:E; auto. apply LexProofs.bytes_eqb_spec in E. now elim Hg. }
  destruct (applyChanges (dr_contents d) cs) as [t|] eqn:E.
  - destruct (onChange A analyse f v cs d t s G E) as (u & E1 & ->). eexists _, _. split; [exact E1|].
    cbn [drafts tus]. split.
    + intros g Hg. rewrite getDraft_add, lookup_insert, N by auto. auto.
    + left. exists t. rewrite getDraft_add, lookup_insert, bytes_eqb_refl. split; [now apply K|]. auto.
  - exists (fst (removeDocument A f s)), [Pub A f None None]. split.
    + unfold onNotification. rewrite G, E. reflexivity.
    + cbn [fst removeDocument drafts tus]. split.
      * intros g Hg. rewrite getDraft_remove, lookup_remove, N by auto. auto.
      * right. rewrite getDraft_remove, lookup_remove, bytes_eqb_refl. split; auto.
        intros t Ht. apply K in Ht. congruence.
Qed.

Lemma C09_rejected_proof :
  forall d st en rl t, unicode d -> (p_char st < 2147483648)%Z -> (p_char en < 2147483648)%Z ->
    ((forall before after, d = before ++ after \/ d ++ [LF] = before ++ after -> ~ lf_position before st) \/
     (forall before after, d = before ++ after \/ d ++ [LF] = before ++ after -> ~ lf_position before en) \/
     (forall before mid after, d = before ++ mid ++ after \/ d ++ [LF] = before ++ mid ++ after ->
        lf_position before st -> ~ lf_position (before ++ mid) en) \/
     (exists z, rl = Some z /\
       forall before mid after, d = before ++ mid ++ after \/ d ++ [LF] = before ++ mid ++ after ->
        lf_position before st -> lf_position (before ++ mid) en -> z <> Z.of_nat (u16len mid))) ->
    fst (applyChange (utf8 d) (Change (Some (st, en)) rl (utf8 t))) = false.
Proof.
  intros d st en rl t Hu Hs He H.
  destruct (applyChange (utf8 d) (Change (Some (st, en)) rl (utf8 t))) as [ok r] eqn:E.
  destruct ok; [exfalso|reflexivity].
  apply applyChange_sound in E as (d1 & before & mid & after & Hd & E1 & P1 & P2 & Hrl & _); auto.
  assert (Hd' : d = before ++ mid ++ after \/ d ++ [LF] = before ++ mid ++ after).
  { destruct Hd as [->|[-> _]]; auto. }
  destruct H as [H|[H|[H|(z & -> & H)]]].
  - apply (H before (mid ++ after)); auto.
  - apply (H (before ++ mid) after); auto. rewrite <- app_assoc. auto.
  - apply (H before mid after); auto.
  - destruct Hrl as [|Hrl]; [discriminate|]. apply (H before mid after); auto. congruence.
Qed.

Lemma C10_refuted_proof :
  exists ops f c v1 v2,
    getDraft f (store_run ops) = Some (Draft c v1) /\
    getDraft f (store_run (ops ++ [SAdd f [] c])) = Some (Draft c v2) /\
    decimal v1 /\ decimal v2 /\ (value v2 < value v1)%Z.
Proof.
  exists [SAdd (b "f") (b "9") (b "x")], (b "f"), (b "x"), (b "9"), (b "1").
  split; [reflexivity|]. split; [reflexivity|]. split; [|split].
  - constructor; [split; discriminate|constructor].
  - constructor; [split; discriminate|constructor].
  - reflexivity.
Qed.

Lemma C10_partial_proof :
  forall ops f c c' v, getDraft f (store_run ops) = Some (Draft c v) ->
    exists v', getDraft f (store_run (ops ++ [SAdd f [] c'])) = Some (Draft c' v') /\
      (forall stem ds x, suffix_of v stem (ds ++ [x]) -> x <> "9"%char ->
         exists ds', suffix_of v' stem ds' /\ value ds' = (value (ds ++ [x]) + 1)%Z) /\
      (suffix_of v v [] -> v' = v ++ b "0").
Proof.
  intros ops f c c' v G. exists (increment v). split.
  - unfold store_run. rewrite fold_left_app. simpl. fold (store_run ops). unfold getDraft in *.
    rewrite lookup_insert, bytes_eqb_refl, G. reflexivity.
  - split.
    + intros stem ds x. now apply increment_larger.
    + apply increment_no_suffix.
Qed.

Lemma C10_last_addition_proof :
  forall ops f v c later, (forall o, In o later -> op_file o <> f) ->
    let st := store_run (ops ++ SAdd f v c :: later) in
    (exists v', getDraft f st = Some (Draft c v') /\ (v <> [] -> v' = v)) /\
    getDraft f (store_run (ops ++ SRemove f :: later)) = None.
Proof.
  intros ops f v c later Hl st.
  assert (K : forall st, getDraft f (fold_left store_step later st) = getDraft f st).
  { clear st. induction later as [|o later IH]; intros st; [reflexivity|]. simpl. rewrite IH by (intros; apply Hl; now right).
    assert (Ho : bytes_eqb (op_file o) f = false).
    { destruct (bytes_eqb (op_file o) f) eqn:E; auto. apply LexProofs.bytes_eqb_spec in E. elim (Hl o); auto. now left. }
    destruct o as [g w x|g]; cbn [store_step op_file] in *; rewrite ?getDraft_add, ?getDraft_remove, Ho; reflexivity. }
  unfold st, store_run. rewrite !fold_left_app. cbn [fold_left]. rewrite !K. cbn [store_step].
  rewrite getDraft_add, getDraft_remove, bytes_eqb_refl. split; auto.
  eexists. split; [reflexivity|]. destruct v; [congruence|reflexivity].
Qed.

Lemma C10_version_roundtrip_proof :
  (forall z, (-9223372036854775808 <= z <= 9223372036854775807)%Z -> decodeVersion (encodeVersion (Some z)) = Some z) /\
  decodeVersion (encodeVersion None) = None.
Proof.
  split; [exact version_roundtrip|reflexivity].
Qed.

Lemma C59_snapshot_proof :
  forall (A : Type) (analyse : bytes -> A) es f r sp,
    mexec A analyse (cinit A, Idle A) (es ++ [Read A f r]) sp ->
    exists ns s pubs,
      (ns = started es \/ exists n, started es = ns ++ [n]) /\
      (snd sp = Idle A -> ns = started es) /\
      onNotifications A analyse ns (cinit A) = Ok (s, pubs) /\
      match r with
      | Some t => option_map dr_contents (getDraft f (drafts A s)) = Some (tu_src A t) /\
                  tu_res A t = analyse (tu_src A t)
      | None => getDraft f (drafts A s) = None
      end.
Proof.
  intros A analyse es f r sp H. remember (es ++ [Read A f r]) as l eqn:E1. remember (cinit A, Idle A) as s0 eqn:E0.
  destruct H as [s|s es' sp1 e sp H1 H2]; [destruct es; discriminate|].
  apply app_inj_tail in E1 as [-> ->]. subst s.
  assert (sp1 = sp) as <- by (inversion H2; reflexivity).
  destruct (read_linear A analyse es f r sp1 H1 H2) as (ns & s & p & E & -> & Hp & Hi).
  exists ns, s, p. split; [auto|]. split; [auto|]. split; [auto|].
  rewrite (onNotifications_snapshot A analyse ns _ _ _ (snapshot_init A analyse) E f).
  destruct (getDraft f (drafts A s)); simpl; auto.
Qed.
