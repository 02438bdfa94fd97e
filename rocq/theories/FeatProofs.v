(** Proofs for C36 to C39 and C55. *)
From Coq Require Import Permutation Sorted.
From Verif Require Import Base Diag LexModel LexSpec LexProofs AstModel PSupModel SemaModel VlaModel ParseModel ParseSpec
  ParseInv ParseTree ParseSema ParseProofs NavModel NavSpec NavProofs VlaBase TextModel TextSpec TextProofs FeatModel FeatSpec.

(** ** C55 *)
Lemma bytes_eqb_eq x y : bytes_eqb x y = true <-> x = y.
Proof.
  revert y. induction x as [|a x IH]; intros [|c y]; simpl; split; intros H; try discriminate; auto.
  - apply andb_true_iff in H as [H1 H2]. apply Ascii.eqb_eq in H1. apply IH in H2. congruence.
  - injection H as -> ->. rewrite Ascii.eqb_refl. now apply IH.
Qed.
Lemma dkind_beq_eq x y : dkind_beq x y = true <-> x = y.
Proof. split; [apply internal_dkind_dec_bl|apply internal_dkind_dec_lb]. Qed.
Lemma all_kinds k : In k all_dkinds.
Proof. destruct k; vm_compute; tauto. Qed.
Lemma parseKind_sname k : parseKind (sname_of k) = Some k.
Proof. destruct k; vm_compute; reflexivity. Qed.
Lemma parseKind_some x k : parseKind x = Some k -> x = sname_of k.
Proof. intros H. apply find_some in H as [_ H]. symmetry. now apply bytes_eqb_eq. Qed.

Lemma suppressed_fold names k : forall set,
  isSuppressed (fold_left (fun set name => match parseKind name with Some k => k :: set | None => set end) names set) k
  = existsb (bytes_eqb (sname_of k)) names || isSuppressed set k.
Proof.
  induction names as [|x names IH]; intros set; [reflexivity|]. cbn [fold_left existsb]. rewrite IH.
  destruct (parseKind x) as [k'|] eqn:E.
  - apply parseKind_some in E. subst x. unfold isSuppressed at 1. cbn [existsb]. fold (isSuppressed set k).
    assert (D : dkind_beq k k' = bytes_eqb (sname_of k) (sname_of k')).
    { apply eq_true_iff_eq. rewrite dkind_beq_eq, bytes_eqb_eq. split; [now intros ->|].
      intros H. pose proof (parseKind_sname k) as A. rewrite H, parseKind_sname in A. congruence. }
    rewrite D. destruct (existsb _ names), (bytes_eqb (sname_of k) (sname_of k')); reflexivity.
  - destruct (bytes_eqb (sname_of k) x) eqn:B; [|reflexivity]. apply bytes_eqb_eq in B. subst x.
    rewrite parseKind_sname in E. discriminate.
Qed.
Lemma suppressed_names names k : isSuppressed (updateSuppressed names) k = existsb (bytes_eqb (sname_of k)) names.
Proof. unfold updateSuppressed. rewrite suppressed_fold. apply orb_false_r. Qed.

Lemma rmap_ok {A B} (f : A -> res B) (R : A -> B -> Prop) l :
  Forall (fun x => exists y, f x = Ok y /\ R x y) l -> exists ys, rmap f l = Ok ys /\ Forall2 R l ys.
Proof.
  induction 1 as [|x l (y & E & H) _ (ys & E' & IH)]; [exists []; split; constructor|].
  exists (y :: ys). cbn [rmap]. rewrite E, E'. split; [reflexivity|now constructor].
Qed.

Lemma publishOne_ok src d : instantiated d -> exists es, publishOne src d = Ok es /\ entries src d es.
Proof.
  intros H. apply instantiated_renders in H as [(msg & E & F) N].
  unfold publishOne. rewrite E. cbn [bind].
  destruct (rmap_ok (fun n => let* m := n_format n in Ok (Related (toLSPRange src (n_range n)) m))
    (fun n r => lsp_range src (off (lcur (n_range n))) (off (rcur (n_range n))) (rel_range r) /\
                fills (nmessage (n_kind n)) (n_args n) (rel_message r)) (d_notes d)) as (rel & E1 & R1).
  { eapply Forall_impl; [|exact N]. intros n (t & E1 & F1). rewrite E1. eexists. split; [reflexivity|].
    split; [split; reflexivity|exact F1]. }
  destruct (rmap_ok (fun n => let* m := n_format n in
                        Ok (LDiag (toLSPRange src (n_range n)) 4 (nsname_of (n_kind n)) m []
                                  [Related (toLSPRange src (d_range d)) (b "original diagnostic")]))
    (note_entry src d) (d_notes d)) as (notes & E2 & R2).
  { eapply Forall_impl; [|exact N]. intros n (t & E2 & F2). rewrite E2. eexists. split; [reflexivity|].
    repeat split; auto. eexists. repeat split. }
  rewrite E1. cbn [bind]. rewrite E2. cbn [bind]. eexists. split; [reflexivity|].
  eexists _, notes. split; [reflexivity|]. cbn [ld_code ld_severity ld_range ld_message ld_related].
  split; [reflexivity|]. split; [unfold getLSPSeverity, lsp_severity; destruct (severity_of (d_kind d)); reflexivity|].
  split; [split; reflexivity|]. split; [|split; [assumption|split; [|assumption]]].
  2: { unfold toLSPTags. cbn [ld_tags]. induction (d_tags d) as [|[] ts IH]; cbn [map]; constructor; auto; reflexivity. }
  unfold withFixInfo. destruct (d_fixes d) as [|f [|g fs]]; cbn [List.length].
  - exists msg, []. rewrite app_nil_r. auto.
  - exists msg. eexists. split; [reflexivity|]. split; [exact F|discriminate].
  - exists msg. eexists. split; [reflexivity|]. split; [exact F|discriminate].
Qed.

Lemma publish_ok names src ds : Forall instantiated ds ->
  exists blocks, publishDiagnostics (updateSuppressed names) src ds = Ok (List.concat blocks) /\
    Forall2 (entries src) (unsuppressed names ds) blocks.
Proof.
  induction 1 as [|d ds H _ (bs & E & F)]; [exists []; split; constructor|].
  cbn [publishDiagnostics unsuppressed filter]. rewrite suppressed_names.
  destruct (existsb (bytes_eqb (sname_of (d_kind d))) names); [exists bs; auto|].
  destruct (publishOne_ok src d H) as (es & E1 & F1). cbn [negb]. rewrite E1. cbn [bind]. rewrite E. cbn [bind].
  exists (es :: bs). split; [reflexivity|now constructor].
Qed.

(** ** C36 *)
Lemma cursor_order pre1 pre2 c1 c2 src : (exists p, src = pre1 ++ p) -> (exists p, src = pre2 ++ p) ->
  cursor_after pre1 c1 -> cursor_after pre2 c2 -> (before (pos_of c1) (pos_of c2) <-> off c1 <= off c2).
Proof.
  assert (K : forall pre1 w c1 c2, cursor_after pre1 c1 -> cursor_after (pre1 ++ w) c2 ->
    before (pos_of c1) (pos_of c2) /\ (w <> [] -> ~ before (pos_of c2) (pos_of c1))).
  { clear. intros pre1 w c1 c2 (O1 & L1 & a1 & l1 & E1 & N1 & C1 & A1) (O2 & L2 & a2 & l2 & E2 & N2 & C2 & A2).
    rewrite count_occ_app in L2. unfold before, pos_of. simpl.
    destruct (in_dec ascii_dec lf w) as [I|I].
    - apply (count_occ_In ascii_dec) in I. lia.
    - rewrite (proj1 (count_occ_not_In ascii_dec w lf) I) in L2.
      assert (l2 = l1 ++ w).
      { subst pre1. rewrite <- app_assoc in E2.
        assert (U : forall (a l a' l' : bytes), a ++ l = a' ++ l' -> ~ In lf l -> ~ In lf l' ->
          (a = [] \/ exists x, a = x ++ [lf]) -> (a' = [] \/ exists x, a' = x ++ [lf]) -> l = l').
        { clear. intros a l a' l' E N N' A A'. 
          apply app_eq_app in E as (m & [[-> ->]|[-> ->]]).
          - destruct A as [A|(x & A)].
            + apply app_eq_nil in A as [-> ->]. reflexivity.
            + destruct m as [|y m] using rev_ind; [reflexivity|]. rewrite app_assoc in A.
              apply app_inj_tail in A as [_ ->]. exfalso. apply N'. rewrite !in_app_iff. simpl. tauto.
          - destruct A' as [A'|(x & A')].
            + apply app_eq_nil in A' as [-> ->]. reflexivity.
            + destruct m as [|y m] using rev_ind; [reflexivity|]. rewrite app_assoc in A'.
              apply app_inj_tail in A' as [_ ->]. exfalso. apply N. rewrite !in_app_iff. simpl. tauto. }
        symmetry. eapply (U a1 (l1 ++ w) a2 l2); eauto. rewrite in_app_iff. tauto. }
      subst l2. rewrite app_length in C2. split; [lia|]. intros W.
      assert (0 < List.length w) by (destruct w; [congruence|simpl; lia]). lia. }
  intros [p1 E1] [p2 E2] H1 H2. rewrite E1 in E2. apply app_eq_app in E2 as (w & [[-> _]|[-> _]]).
  - destruct w as [|x w].
    + rewrite app_nil_r in H1. assert (H2' : cursor_after (pre2 ++ []) c2) by now rewrite app_nil_r.
      destruct (K _ _ _ _ H1 H2') as [K1 _]. destruct H1 as (O1 & _), H2 as (O2 & _). split; [lia|auto].
    + destruct (K _ _ _ _ H2 H1) as [K1 K2]. destruct H1 as (O1 & _), H2 as (O2 & _). rewrite app_length in O1.
      simpl in O1. split; [|lia]. intros B. exfalso. apply K2; [discriminate|exact B].
  - destruct (K _ _ _ _ H1 H2) as [K1 K2]. destruct H1 as (O1 & _), H2 as (O2 & _). rewrite app_length in O2.
    split; [lia|auto].
Qed.

Lemma ascii_bytes d : ascii_text d -> unicode d -> List.length (utf8 d) = u16len d.
Proof.
  intros A _. induction A as [|x d H _ IH]; [reflexivity|]. rewrite utf8_cons, app_length, u16len_cons, IH.
  f_equal. unfold utf8_char, u16. destruct (N.ltb_spec x 128); [|lia]. destruct (N.ltb_spec x 65536); [reflexivity|lia].
Qed.
Lemma u16_le_bytes x : u16 x <= List.length (utf8_char x) /\ (u16 x = List.length (utf8_char x) -> (x < 128)%N).
Proof.
  unfold utf8_char, u16. rewrite map_length.
  destruct (N.ltb_spec x 128), (N.ltb_spec x 2048), (N.ltb_spec x 65536); simpl; split; try lia.
Qed.
Lemma bytes_ascii d : u16len d <= List.length (utf8 d) /\ (u16len d = List.length (utf8 d) -> ascii_text d).
Proof.
  induction d as [|x d [IH1 IH2]]; [split; [apply le_n|constructor]|].
  rewrite utf8_cons, app_length, u16len_cons. destruct (u16_le_bytes x) as [K1 K2].
  split; [lia|]. intros E. constructor; [apply K2; lia|apply IH2; lia].
Qed.

Lemma utf8_last above ln : unicode above -> unicode ln -> ~ In LF ln -> (above = [] \/ exists a, above = a ++ [LF]) ->
  ~ In lf (utf8 ln) /\ (utf8 above = [] \/ exists a, utf8 above = a ++ [lf]).
Proof.
  intros Ua Ul N A. split.
  - intros I. pose proof (utf8_no_lf ln Ul N) as F. rewrite Forall_forall in F. specialize (F _ I). discriminate.
  - destruct A as [->|(a & ->)]; [left; reflexivity|right]. exists (utf8 a). rewrite utf8_app. reflexivity.
Qed.

Lemma count_lf_occ s : count_lf s = count_occ ascii_dec s lf.
Proof.
  unfold count_lf. induction s as [|c s IH]; [reflexivity|]. cbn [filter count_occ].
  destruct (is_lf c) eqn:E.
  - apply is_lf_true in E. subst c. destruct (ascii_dec "010" lf) as [|K]; [simpl; now rewrite IH|exfalso; apply K; reflexivity].
  - destruct (ascii_dec c lf) as [->|]; [discriminate|exact IH].
Qed.
(** the cursor of a place and its LSP position *)
Lemma cursor_position bef ln c p : unicode bef -> lf_position bef p -> line_before bef ln -> cursor_after (utf8 bef) c ->
  Z.to_nat (p_line p) = line c /\ p_char p = Z.of_nat (u16len ln) /\ col c = List.length (utf8 ln).
Proof.
  intros U (ab & la & E & N & A & PL & PC) (ab' & E' & N' & A') (O & L & abc & lac & Ec & Nc & C & Ac).
  assert (ab' = ab /\ ln = la) as [-> ->].
  { rewrite E in E'. destruct (split_last_unique _ _ _ _ E' N N' A A') as [-> ->]. auto. }
  subst bef. apply unicode_app in U as [Ua Ul].
  split; [|split; [exact PC|]].
  - rewrite PL, Nat2Z.id, L, <- count_lf_occ. symmetry. apply count_lf_utf8. now apply unicode_app.
  - destruct (utf8_last ab la Ua Ul N A) as [N2 A2]. rewrite C. f_equal. rewrite utf8_app in Ec.
    clear - Ec N2 A2 Nc Ac. symmetry.
    apply app_eq_app in Ec as (m & [[E1 E2]|[E1 E2]]).
    + destruct m as [|y m] using rev_ind; [rewrite E2; reflexivity|]. destruct A2 as [A2|(x & A2)].
      * rewrite A2 in E1. symmetry in E1. apply app_eq_nil in E1 as [_ E1]. apply app_eq_nil in E1 as [_ E1]. discriminate.
      * rewrite A2, app_assoc in E1. apply app_inj_tail in E1 as [_ <-]. exfalso. apply Nc. rewrite E2, !in_app_iff. simpl. tauto.
    + destruct m as [|y m] using rev_ind; [rewrite E2; reflexivity|]. destruct Ac as [Ac|(x & Ac)].
      * rewrite Ac in E1. symmetry in E1. apply app_eq_nil in E1 as [_ E1]. apply app_eq_nil in E1 as [_ E1]. discriminate.
      * rewrite Ac, app_assoc in E1. apply app_inj_tail in E1 as [_ <-]. exfalso. apply N2. rewrite E2, !in_app_iff. simpl. tauto.
Qed.

Lemma position_agrees bef aft ln c : unicode (bef ++ aft) -> no_lone_cr (bef ++ aft) -> line_before bef ln ->
  cursor_after (utf8 bef) c -> (toNixfPosition (position bef aft) = pos_of c <-> ascii_text ln).
Proof.
  intros U R L C. pose proof (position_lf bef aft R) as P. apply unicode_app in U as [U _].
  destruct (cursor_position _ _ _ _ U P L C) as (H1 & H2 & H3).
  unfold toNixfPosition, pos_of. rewrite H1, H2, H3, Nat2Z.id.
  assert (Ul : unicode ln) by (destruct L as (ab & -> & _); now apply unicode_app in U).
  split.
  - intros E. injection E as E. now apply bytes_ascii.
  - intros A. now rewrite ascii_bytes.
Qed.

Lemma cursor_exists pre : exists c, cursor_after pre c.
Proof.
  assert (exists above last, pre = above ++ last /\ ~ In lf last /\ (above = [] \/ exists a, above = a ++ [lf])) as (a & l & E & N & A).
  { induction pre as [|x pre (a & l & -> & N & A)] using rev_ind; [exists [], []; simpl; tauto|].
    destruct (ascii_dec x lf) as [->|D].
    - exists ((a ++ l) ++ [lf]), []. rewrite app_nil_r. split; [reflexivity|]. split; [auto|]. right. eauto.
    - exists a, (l ++ [x]). rewrite <- app_assoc. split; [reflexivity|]. split; [|exact A].
      rewrite in_app_iff. simpl. intuition congruence. }
  exists (mkCur (count_occ ascii_dec pre lf) (List.length l) (List.length pre)).
  split; [reflexivity|]. split; [reflexivity|]. exists a, l. auto.
Qed.

Lemma touches_contains src n o c : range_in src (nrange n) -> (exists pre post, src = pre ++ post /\ cursor_after pre c) ->
  off c = o -> (contains (prange_of (nrange n)) (pos_of c, pos_of c) <-> touches n o).
Proof.
  intros (C1 & C2 & _) (pre & post & E & C) <-. unfold contains, touches, prange_of. simpl.
  destruct C1 as (p1 & q1 & E1 & C1), C2 as (p2 & q2 & E2 & C2).
  assert (A := cursor_order p1 pre (lcur (nrange n)) c src (ex_intro _ _ E1) (ex_intro _ _ E) C1 C).
  assert (B := cursor_order pre p2 c (rcur (nrange n)) src (ex_intro _ _ E) (ex_intro _ _ E2) C C2).
  unfold nl, nr. tauto.
Qed.

Lemma node_at bef aft ln n ds : unicode (bef ++ aft) -> no_lone_cr (bef ++ aft) -> line_before bef ln -> ascii_text ln ->
  parse (utf8 (bef ++ aft)) = Ok (Some n, ds) ->
  exists o, nodeAtPosition n (position bef aft) = Ok o /\
    match o with
    | Some m => node_of n m /\ touches m (List.length (utf8 bef)) /\
                forall c, In c (present (children m)) -> ~ touches c (List.length (utf8 bef))
    | None => ~ touches n (List.length (utf8 bef))
    end.
Proof.
  intros U R L A E. destruct (cursor_exists (utf8 bef)) as [c C].
  apply (position_agrees bef aft ln c U R L C) in A.
  unfold nodeAtPosition, toNixfRange. cbn [l_start l_end]. rewrite A.
  destruct (descend_ok n (pos_of c, pos_of c)) as (o & Eo & H). exists o. split; [exact Eo|].
  pose proof (parse_ok (utf8 (bef ++ aft))) as P. rewrite E in P. destruct P as (_ & P & _).
  destruct (P n eq_refl) as [[? [P' _]] _]. clear P. rename P' into P.
  assert (Rg : forall m, node_of n m -> range_in (utf8 (bef ++ aft)) (nrange m)).
  { intros m M. destruct (node_of_shape _ _ _ P M) as [X|X]; [exact (nok_range _ _ X)|].
    clear - P M. destruct P as [P _]. apply (sok_range (utf8 (bef ++ aft))). eapply within_sok; [|exact P].
    clear - M. induction M as [|n c m I _ IH]; [constructor|]. eapply within_field; [|exact IH].
    unfold fields. apply in_app_iff. auto. }
  assert (T : forall m, node_of n m ->
     (contains (prange_of (nrange m)) (pos_of c, pos_of c) <-> touches m (List.length (utf8 bef)))).
  { intros m M. apply (touches_contains (utf8 (bef ++ aft))); [now apply Rg| |apply C].
    exists (utf8 bef), (utf8 aft). split; [apply utf8_app|exact C]. }
  destruct o as [m|].
  - destruct H as (_ & (l & Ch & F) & K). pose proof (chain_node _ _ _ Ch) as M.
    split; [exact M|]. split.
    + apply T; [exact M|]. destruct Ch; inversion F; subst; assumption.
    + intros y I. rewrite <- T; [now apply K|]. eapply node_of_trans; [exact M|]. econstructor; [exact I|constructor].
  - rewrite <- T; [exact H|constructor].
Qed.

(** ** C37 *)
Definition tle (t u : rawtok) : Prop := lle (t_pos t) (t_pos u).
Lemma lpos_ltb_spec p q : lpos_ltb p q = true <-> ~ lle q p.
Proof.
  unfold lpos_ltb, lle. rewrite orb_true_iff, andb_true_iff, Z.ltb_lt, Z.eqb_eq, Z.ltb_lt. lia.
Qed.
Lemma lle_trans p q r : lle p q -> lle q r -> lle p r.
Proof. unfold lle. lia. Qed.
Lemma insertTok_perm t l : Permutation (t :: l) (insertTok t l).
Proof.
  induction l as [|u l IH]; [constructor; constructor|]. cbn [insertTok]. destruct (lpos_ltb (t_pos u) (t_pos t)).
  - eapply perm_trans; [apply perm_swap|]. now constructor.
  - apply Permutation_refl.
Qed.
Lemma insertTok_sorted t l : StronglySorted tle l -> StronglySorted tle (insertTok t l).
Proof.
  induction 1 as [|u l S IH F]; [repeat constructor|]. cbn [insertTok].
  destruct (lpos_ltb (t_pos u) (t_pos t)) eqn:E.
  - constructor; [exact IH|]. eapply Permutation_Forall; [apply insertTok_perm|]. constructor; [|exact F].
    apply lpos_ltb_spec in E. unfold tle, lle in *. lia.
  - assert (K : tle t u).
    { destruct (lpos_ltb (t_pos u) (t_pos t)) eqn:D; [discriminate|]. 
      assert (~ ~ lle (t_pos t) (t_pos u)) by (rewrite <- lpos_ltb_spec, D; discriminate).
      unfold tle, lle in *. lia. }
    constructor; [now constructor|]. constructor; [exact K|]. eapply Forall_impl; [|exact F].
    intros v. unfold tle. apply lle_trans. exact K.
Qed.
Lemma sortToks_ok l : StronglySorted tle (sortToks l) /\ Permutation l (sortToks l).
Proof.
  induction l as [|t l [IH1 IH2]]; [split; constructor|]. cbn [sortToks fold_right]. fold (sortToks l). split.
  - now apply insertTok_sorted.
  - eapply perm_trans; [|apply insertTok_perm]. now constructor.
Qed.

Definition small (p : lpos) : Prop := (0 <= p_line p < 4294967296 /\ 0 <= p_char p < 4294967296)%Z.
Lemma encode_ok l : forall prev, small prev -> Forall (fun t => small (t_pos t)) l -> StronglySorted tle l ->
  Forall (fun t => lle prev (t_pos t)) l ->
  exists ds, encode prev l = Ok ds /\ decode (Z.to_nat (p_line prev)) (Z.to_nat (p_char prev)) ds = map abs_of l.
Proof.
  induction l as [|t l IH]; intros prev Sp Sl SS Fp; [exists []; split; reflexivity|].
  inversion Sl as [|? ? St Sl']; subst. inversion SS as [|? ? SS' Ft]; subst. inversion Fp as [|? ? Pt _]; subst.
  destruct (IH (t_pos t) St Sl' SS' Ft) as (ds & E & D).
  cbn [encode]. destruct (Z.ltb_spec (p_line (t_pos t) - p_line prev) 0) as [B|B]; [unfold lle in Pt; lia|].
  rewrite E. cbn [bind]. eexists. split; [reflexivity|].
  destruct St as [St1 St2], Sp as [Sp1 Sp2]. unfold lle in Pt.
  assert (U : forall z, (0 <= z < 4294967296)%Z -> u32 z = Z.to_nat z).
  { intros z H. unfold u32. now rewrite Z.mod_small. }
  rewrite (U (p_line (t_pos t) - p_line prev)%Z) by lia.
  cbn [decode map d_line d_start d_len d_type d_mods].
  assert (A : Z.to_nat (p_line prev) + Z.to_nat (p_line (t_pos t) - p_line prev) = Z.to_nat (p_line (t_pos t))) by lia.
  assert (Cc : match Z.to_nat (p_line (t_pos t) - p_line prev) with
    | 0 => Z.to_nat (p_char prev) + (if Nat.eqb (Z.to_nat (p_line (t_pos t) - p_line prev)) 0
             then u32 (p_char (t_pos t) - p_char prev) else u32 (p_char (t_pos t)))
    | S _ => if Nat.eqb (Z.to_nat (p_line (t_pos t) - p_line prev)) 0
             then u32 (p_char (t_pos t) - p_char prev) else u32 (p_char (t_pos t)) end = Z.to_nat (p_char (t_pos t))).
  { destruct (Z.to_nat (p_line (t_pos t) - p_line prev)) eqn:Z0; cbn [Nat.eqb]; rewrite U; lia. }
  rewrite Cc, A, D. reflexivity.
Qed.

Lemma units_bound (cps : list (nat * nat)) n : Forall (fun cp => snd cp <= 2) cps ->
  fold_left (fun n cp => n + snd cp) cps n <= n + 2 * List.length cps.
Proof.
  revert n. induction cps as [|x cps IH]; intros n F; simpl; [lia|]. inversion F; subst. specialize (IH (n + snd x) H2). lia.
Qed.
Lemma codepoints_bound s : forall k, Forall (fun cp => snd cp <= 2) (codepoints k s) /\ List.length (codepoints k s) <= List.length s.
Proof.
  induction s as [|c s IH]; intros k; [split; [constructor|simpl; lia]|]. cbn [codepoints]. destruct k as [|k].
  - destruct (IH (fst (lead c) - 1)) as [H1 H2]. split; [constructor; auto|simpl; lia].
    unfold lead. repeat destruct (N.ltb _ _); simpl; lia.
  - destruct (IH k). split; auto. simpl; lia.
Qed.
Lemma lspLength_bound s : lspLength s <= 2 * List.length s.
Proof. destruct (codepoints_bound s 0) as [H1 H2]. pose proof (units_bound _ 0 H1). unfold lspLength. lia. Qed.
Lemma after_last_bound s : forall acc, List.length (after_last_lf s acc) <= List.length s + List.length acc.
Proof.
  induction s as [|c s IH]; intros acc; cbn [after_last_lf]; [rewrite rev_length; simpl; lia|].
  destruct (is_lf c); [specialize (IH [])|specialize (IH (c :: acc))]; simpl in *; lia.
Qed.
Lemma count_lf_bound s : count_lf s <= List.length s.
Proof. unfold count_lf. induction s as [|c s IH]; simpl; [lia|]. destruct (is_lf c); simpl; lia. Qed.
Lemma position_small src o : (Z.of_nat (List.length src) < 2147483648)%Z -> small (offsetToPosition src o).
Proof.
  intros H. unfold offsetToPosition, small. cbn [p_line p_char]. set (w := firstn _ src).
  assert (List.length w <= List.length src) by (unfold w; rewrite firstn_length; lia).
  pose proof (count_lf_bound w). pose proof (after_last_bound w []). pose proof (lspLength_bound (after_last_lf w [])).
  simpl in *. lia.
Qed.

Lemma in_ofor {A} (f : node -> list A) o t : In t (ofor f o) -> exists m, o = Some m /\ In t (f m).
Proof. destruct o as [m|]; simpl; [eauto|contradiction]. Qed.
(** a walk over the children only produces what it produces for some child *)
Lemma over_children_in {A} (f : node -> list A) n t : In t (over_children f n) ->
  exists c, In c (present (children n)) /\ In t (f c).
Proof.
  assert (K : In t (over_children f n) -> exists c, In (Some c) (children n) /\ In t (f c)).
  { destruct n; cbn [over_children children]; intros H;
      repeat match goal with
      | H : In _ (_ ++ _) |- _ => apply in_app_iff in H as [H|H]
      | H : In _ (ofor _ _) |- _ => apply in_ofor in H as (? & -> & H)
      | H : In _ (flat_map _ _) |- _ => apply in_flat_map in H as (? & ? & H)
      | H : In _ [] |- _ => destruct H
      end; try (eexists; split; [|exact H]; simpl; tauto);
      try (eexists; split; [|exact H]; simpl; rewrite ?in_app_iff, ?in_map_iff; simpl; eauto 8; fail).
    - destruct x as [|m]; [destruct H|]. exists m. split; [|exact H]. apply in_map. apply in_flat_map. exists (inr m). simpl; auto.
    - exists x. split; [|exact H]. apply in_map. apply in_app_iff. auto.
    - exists x. split; [|exact H]. apply in_map. apply in_app_iff. auto.
    - destruct ell as [m|]; [exists m; simpl; auto|]. apply in_app_iff in H as [H|H]; apply in_ofor in H as (? & -> & H); eexists; split; eauto; simpl; auto. }
  intros H. apply K in H as (c & I & H). exists c. split; [now apply present_in|exact H].
Qed.
Lemma over_children_has {A} (f : node -> list A) n c t : In c (present (children n)) -> In t (f c) -> In t (over_children f n).
Proof.
  intros I H. apply present_in in I.
  destruct n; cbn [over_children children] in *;
    repeat match goal with
    | I : In _ (_ ++ _) |- _ => apply in_app_iff in I as [I|I]
    | I : In _ (map _ _) |- _ => apply in_map_iff in I as (? & [= ->] & I)
    | I : In _ (_ :: _) |- _ => destruct I as [I|I]
    | I : In _ [] |- _ => destruct I
    | I : Some _ = Some _ |- _ => injection I as ->
    end; subst; cbn [ofor]; rewrite ?in_app_iff; try tauto;
    try (right; apply in_flat_map; eauto; fail); try (left; apply in_flat_map; eauto; fail);
    try (apply in_flat_map; eauto; fail).
  - apply in_flat_map in I as (x & I & K). destruct x as [|m]; [destruct K|]. destruct K as [->|[]].
    apply in_flat_map. exists (inr c). auto.
  - destruct ell as [m|]; simpl in *.
    + destruct I as [I|[]]. now injection I as ->.
    + rewrite in_app_iff. destruct I as [->|[->|[]]]; simpl; auto.
Qed.
Lemma within_trans a c d : within a c -> within c d -> within a d.
Proof. induction 1; auto. intros. econstructor; eauto. Qed.

Lemma addTok_in s src n k m t : In t (addTok src n k m) -> marks s k m n -> token_of s src n t.
Proof.
  unfold addTok, skipTok. destruct (Nat.eqb_spec (line (nl n)) (line (nr n))) as [E|E]; simpl; [|contradiction].
  intros [<-|[]] M. repeat split; auto.
Qed.

Lemma defBuiltin_ok s d : defBuiltin s d = true <-> is_builtin s d.
Proof.
  unfold defBuiltin, is_builtin. destruct (nth_error (v_defs s) d) as [df|].
  - split; [intros H; exists df; split; auto; now destruct (df_src df)|]. intros (df' & E & K). injection E as <-. now rewrite K.
  - split; [discriminate|]. intros (df' & E & _). discriminate.
Qed.
Lemma tokVar_in s src n t : kind_of n = NK_ExprVar -> In t (tokVar s src n) -> token_of s src n t.
Proof.
  intros K H. unfold tokVar in H.
  destruct (bytes_eqb (varName n) (b "true")) eqn:E1; [eapply addTok_in; [exact H|]; split; auto; left; now apply bytes_eqb_eq|].
  destruct (bytes_eqb (varName n) (b "false")) eqn:E2; [eapply addTok_in; [exact H|]; split; auto; right; now apply bytes_eqb_eq|].
  cbn [orb] in H. destruct (bytes_eqb (varName n) (b "null")) eqn:E3; [eapply addTok_in; [exact H|]; split; auto; now apply bytes_eqb_eq|].
  destruct (query s n) as [[|d|d]|] eqn:Q; try (eapply addTok_in; [exact H|]; split; [exact K|]; right; split; [|reflexivity]; intros d; rewrite Q; split; discriminate).
  - destruct (defBuiltin s d) eqn:B; (eapply addTok_in; [exact H|]; split; [exact K|]).
    + exists d. split; [auto|]. now apply defBuiltin_ok.
    + exists d. split; [auto|]. intros Z. apply defBuiltin_ok in Z. congruence.
  - destruct (defBuiltin s d) eqn:B; (eapply addTok_in; [exact H|]; split; [exact K|]).
    + exists d. split; [auto|]. now apply defBuiltin_ok.
    + left. exists d. split; [auto|]. split; [|reflexivity]. intros Z. apply defBuiltin_ok in Z. congruence.
Qed.

Lemma child_vsize n c : In c (present (children n)) -> vsize c < vsize n.
Proof.
  intros H. apply present_in in H.
  assert (F : forall l, In c (interps l) -> vsize c <= fsize l).
  { induction l as [|[x|m] l IH]; simpl; [intros []|auto|]. intros [->|H0]; [lia|]. apply IH in H0. lia. }
  destruct n; cbn [children] in H;
    repeat match goal with
    | H : In _ [] |- _ => destruct H
    | H : In (Some _) (map Some _) |- _ => apply in_map_iff in H as (? & [= ->] & H)
    | H : In _ (_ ++ _) |- _ => apply in_app_iff in H as [H|H]
    | H : In _ (_ :: _) |- _ => destruct H as [H|H]
    | H : Some _ = Some _ |- _ => injection H as ->
    end; subst; cbn [vsize]; try lia;
    try (apply lsize_in in H; unfold lsize in H; lia).
  - apply F in H. unfold fsize in H. lia.
  - destruct ell; simpl in H; repeat (destruct H as [H|H]); try contradiction; try discriminate; try (injection H as ->); subst; cbn; lia.
Qed.
Lemma static_vsize i r bd rc st dy kv : In kv st ->
  vsize (a_value (snd kv)) < vsize (NAttrs i r bd rc st dy) /\ vsize (a_key (snd kv)) < vsize (NAttrs i r bd rc st dy).
Proof.
  intros H. assert (vsize (a_value (snd kv)) + vsize (a_key (snd kv)) <= ssize st).
  { induction st as [|[x [[k a] v]] st IH]; [destruct H|].
    change (ssize ((x, (k, a, v)) :: st)) with (vsize a + vsize v + ssize st).
    destruct H as [<-|H]; [cbn [a_value a_key snd fst]; lia|]. apply IH in H. lia. }
  cbn [vsize]. unfold ssize in *. lia.
Qed.
Lemma dynamic_vsize i r bd rc st dy a : In a dy ->
  vsize (a_value a) < vsize (NAttrs i r bd rc st dy) /\ vsize (a_key a) < vsize (NAttrs i r bd rc st dy).
Proof.
  intros H. assert (vsize (a_value a) + vsize (a_key a) <= dsize dy).
  { induction dy as [|[[k c] v] dy IH]; [destruct H|].
    change (dsize ((k, c, v) :: dy)) with (vsize c + vsize v + dsize dy).
    destruct H as [<-|H]; [cbn [a_value a_key snd fst]; lia|]. apply IH in H. lia. }
  cbn [vsize]. unfold dsize in *. lia.
Qed.
Lemma field_child n c : In c (present (children n)) -> within n c.
Proof. intros H. eapply within_field; [|constructor]. unfold fields. apply in_app_iff. auto. Qed.
Lemma field_static i r bd rc st dy kv : In kv st ->
  within (NAttrs i r bd rc st dy) (a_value (snd kv)) /\ within (NAttrs i r bd rc st dy) (a_key (snd kv)).
Proof.
  intros H. split; (eapply within_field; [|constructor]); unfold fields; apply in_app_iff; right; rewrite !in_app_iff.
  - right. left. now apply (in_map (fun kv => a_value (snd kv))).
  - left. now apply (in_map (fun kv => a_key (snd kv))).
Qed.
Lemma field_dynamic i r bd rc st dy a : In a dy ->
  within (NAttrs i r bd rc st dy) (a_value a) /\ within (NAttrs i r bd rc st dy) (a_key a).
Proof.
  intros H. split; (eapply within_field; [|constructor]); unfold fields; apply in_app_iff; right; rewrite !in_app_iff.
  - right. right. right. now apply in_map.
  - right. right. left. now apply in_map.
Qed.

Lemma tokens_ok_n s src k : forall n, vsize n <= k -> sok src n ->
  forall t, In t (tokens s src n) -> exists m, within n m /\ token_of s src m t.
Proof.
  induction k as [|k IH]; intros n Hk S t H; [destruct n; simpl in Hk; lia|].
  assert (D : forall c, In c (present (children n)) -> In t (tokens s src c) -> exists m, within n m /\ token_of s src m t).
  { intros c I H'. pose proof (child_vsize _ _ I). 
    destruct (IH c ltac:(lia) (within_sok _ _ _ (field_child _ _ I) S) t H') as (m & W & T).
    exists m. split; [|exact T]. eapply within_trans; [exact (field_child _ _ I)|exact W]. }
  assert (O : forall o, In t (ofor (tokens s src) o) -> (forall c, o = Some c -> In c (present (children n))) ->
                exists m, within n m /\ token_of s src m t).
  { intros o H' C. apply in_ofor in H' as (c & -> & H'). eapply D; eauto. }
  assert (X : In t (over_children (tokens s src) n) -> exists m, within n m /\ token_of s src m t).
  { intros H'. apply over_children_in in H' as (c & I & H'). eapply D; eauto. }
  pose proof (sok_local _ _ S) as (_ & _ & Ty & _).
  destruct n; try (apply X; exact H); cbn [tokens] in H.
  - destruct (string_literal _) in H; [|destruct H]. eexists. split; [constructor|]. eapply addTok_in; [exact H|reflexivity].
  - eexists. split; [constructor|]. eapply tokVar_in; [reflexivity|exact H].
  - apply in_app_iff in H as [H|H].
    + apply in_flat_map in H as (kv & I & H). destruct (field_static id r body rc st dy kv I) as [W1 W2].
      destruct (static_vsize id r body rc st dy kv I) as [V _].
      destruct kv as [x [[a key] v]]. cbn [snd a_value a_key fst] in *. destruct a; try (destruct H; fail).
      apply in_app_iff in H as [H|H].
      * exists key. split; [exact W2|]. eapply addTok_in; [exact H|]. destruct Ty as (_ & _ & Ty & _).
        rewrite Forall_forall in Ty. apply Ty in I. apply I.
      * destruct (IH v ltac:(lia) (within_sok _ _ _ W1 S) t H) as (m & W & T).
        exists m. split; [eapply within_trans; [exact W1|exact W]|exact T].
    + apply in_flat_map in H as (a & I & H). destruct (field_dynamic id r body rc st dy a I) as [W1 W2].
      destruct (dynamic_vsize id r body rc st dy a I) as [V _].
      destruct a as [[a key] v]. cbn [snd a_value a_key fst] in *.
      destruct (IH v ltac:(lia) (within_sok _ _ _ W1 S) t H) as (m & W & T).
      exists m. split; [eapply within_trans; [exact W1|exact W]|exact T].
  - rewrite !in_app_iff in H. destruct H as [H|[H|H]].
    + eapply D; [|exact H]. simpl. auto.
    + eapply O; [exact H|]. intros c ->. apply present_in. simpl. auto.
    + destruct path as [p|]; [|destruct H]. destruct p; try (destruct H; fail).
      apply in_flat_map in H as (x & I & H). exists x. split.
      * eapply within_trans; [apply field_child; apply present_in; simpl; right; left; reflexivity|].
        apply field_child. apply present_in. simpl. apply in_map. apply in_app_iff. auto.
      * unfold tokName in H. destruct x; try (destruct H; fail). destruct x; try (destruct H; fail).
        eapply addTok_in; [exact H|reflexivity].
  - rewrite in_app_iff in H. destruct H as [H|H]; [|eapply O; [exact H|intros c ->; apply present_in; simpl; auto]].
    destruct arg as [arg|]; [|destruct H]. destruct arg as [| | | | | | | | | | | | | | | | | | | | | | | | | | | | | | | |ai ar ident formals|]; try (destruct H; fail).
    assert (Wa : within (NLambda id r (Some (NLambdaArg ai ar ident formals)) body) (NLambdaArg ai ar ident formals)).
    { apply field_child. apply present_in. simpl. auto. }
    pose proof (within_sok _ _ _ Wa S) as Sa. pose proof (sok_local _ _ Sa) as (_ & _ & [Ti Tf] & _).
    simpl in H. rewrite in_app_iff in H. destruct H as [H|H].
    + apply in_ofor in H as (i & -> & H). exists i. split; [|eapply addTok_in; [exact H|exact Ti]].
      eapply within_trans; [exact Wa|]. apply field_child. apply present_in. simpl; auto.
    + destruct formals as [f|]; [|destruct H]. destruct f; try (destruct H; fail).
      apply in_flat_map in H as (kv & _ & H). unfold tokFormal in H.
      destruct (find _ members) as [fm|] eqn:Fi; [|destruct H]. apply find_some in Fi as [Im _].
      destruct fm; try (destruct H; fail). destruct ident0 as [i|]; [|destruct H].
      assert (Wf : within (NLambda id r (Some (NLambdaArg ai ar ident (Some (NFormals id0 r0 members dedup)))) body)
                          (NFormal id1 r1 comma (Some i) dflt ell)).
      { eapply within_trans; [exact Wa|]. eapply within_trans; apply field_child; apply present_in.
        - simpl; auto.
        - simpl. now apply in_map. }
      exists i. split.
      * eapply within_trans; [exact Wf|]. eapply within_field; [|constructor]. unfold fields. apply in_app_iff. right.
        rewrite !in_app_iff. simpl. auto.
      * eapply addTok_in; [exact H|]. pose proof (sok_local _ _ (within_sok _ _ _ Wf S)) as (_ & _ & (_ & Ti' & _) & _). exact Ti'.
Qed.

Lemma tokens_end src s n t : sok src n -> In t (tokens s src n) -> exists m, within n m /\ token_of s src m t.
Proof. intros S H. eapply tokens_ok_n; eauto. Qed.

Lemma semanticTokens_ok s src n : (Z.of_nat (List.length src) < 2147483648)%Z -> sok src n ->
  exists ds, semanticTokens s src n = Ok ds /\
    Permutation (decode 0 0 ds) (map abs_of (tokens s src n)) /\ StronglySorted abs_le (decode 0 0 ds).
Proof.
  intros B S. unfold semanticTokens, finish. destruct (sortToks_ok (tokens s src n)) as [H1 H2].
  assert (F : Forall (fun t => small (t_pos t)) (sortToks (tokens s src n))).
  { eapply Permutation_Forall; [exact H2|]. apply Forall_forall. intros t I.
    destruct (tokens_end _ _ _ _ S I) as (m & _ & _ & _ & -> & _). now apply position_small. }
  destruct (encode_ok (sortToks (tokens s src n)) (LPos 0 0)) as (ds & E & D); auto.
  - unfold small. simpl. lia.
  - eapply Forall_impl; [|exact F]. unfold small, lle. simpl. lia.
  - exists ds. split; [exact E|]. cbn [p_line p_char] in D. change (Z.to_nat 0) with 0 in D. rewrite D. split.
    + apply Permutation_map. now apply Permutation_sym.
    + clear - H1 F. induction H1 as [|t l S IH T]; cbn [map]; [constructor|]. inversion F as [|? ? Ft Fl]; subst. constructor; [auto|].
      rewrite Forall_forall in *. intros u I. apply in_map_iff in I as (v & <- & I).
      specialize (T v I). specialize (Fl v I). unfold tle, lle, small, abs_le, abs_of in *. simpl. lia.
Qed.

(** ** C39 *)
Lemma position_line src c : cursor_in src c -> p_line (offsetToPosition src (off c)) = Z.of_nat (line c).
Proof.
  intros (pre & post & -> & O & L & _). unfold offsetToPosition. cbn [p_line].
  rewrite O, app_length, Nat.min_r by lia. rewrite firstn_length_app, count_lf_occ, L. reflexivity.
Qed.
Lemma multi_line_ok src n : range_in src (nrange n) -> (isMultiLine (toLSPRange src (nrange n)) = true <-> multi_line n).
Proof.
  intros (H1 & H2 & _). unfold isMultiLine, toLSPRange, toLSPPosition. cbn [l_start l_end].
  rewrite !position_line, Z.ltb_lt by assumption. unfold multi_line, nl, nr. lia.
Qed.

Lemma fold_sound src k : forall n r, In r (collectFoldingRanges src k n) ->
  exists m, node_of n m /\ foldable m /\ r = toLSPRange src (nrange m) /\ isMultiLine r = true.
Proof.
  induction k as [|k IH]; intros n r H; [destruct H|].
  assert (D : forall c, In c (present (children n)) -> In r (collectFoldingRanges src k c) ->
    exists m, node_of n m /\ foldable m /\ r = toLSPRange src (nrange m) /\ isMultiLine r = true).
  { intros c I H'. destruct (IH c r H') as (m & M & K). exists m. split; auto. econstructor; eauto. }
  assert (X : In r (over_children (collectFoldingRanges src k) n) ->
    exists m, node_of n m /\ foldable m /\ r = toLSPRange src (nrange m) /\ isMultiLine r = true).
  { intros H'. apply over_children_in in H' as (c & I & H'). eauto. }
  assert (S : In r (addFoldingRange src n) -> foldable n ->
    exists m, node_of n m /\ foldable m /\ r = toLSPRange src (nrange m) /\ isMultiLine r = true).
  { intros H' F. unfold addFoldingRange in H'. destruct (isMultiLine (toLSPRange src (nrange n))) eqn:E; [|destruct H'].
    destruct H' as [<-|[]]. exists n. split; [constructor|auto]. }
  destruct n; try (apply X; exact H); cbn [collectFoldingRanges] in H; rewrite ?in_app_iff in H;
    try (apply S; [exact H|exact I]);
    destruct H as [H|H]; try (apply S; [exact H|exact I]);
    repeat match goal with
    | H : _ \/ _ |- _ => destruct H as [H|H]
    | H : In _ (ofor _ _) |- _ => apply in_ofor in H as (? & -> & H)
    end; try (eapply D; [|exact H]; apply present_in; simpl; tauto).
  - apply over_children_in in H as (c & I & H). destruct (IH c r H) as (m & M & K). exists m. split; auto.
    econstructor; [|econstructor; [exact I|exact M]]. simpl. auto.
  - apply X. exact H.
Qed.

Lemma typed_of src root n : nok src root -> node_of root n -> kind_of n <> NK_Misc -> typed n.
Proof. intros N M K. destruct (node_of_shape _ _ _ N M) as [H|H]; [apply (nok_local _ _ H)|contradiction]. Qed.

Definition open_node (n : node) : Prop := kind_of n <> NK_ExprString /\ kind_of n <> NK_LambdaArg.
Lemma fold_visits src root k : nok src root -> forall n l, chain root n l -> Forall open_node (tl l) ->
  List.length l <= k -> kind_of n <> NK_Misc -> kind_of n <> NK_LambdaArg ->
  exists d, k < d + List.length l /\ incl (collectFoldingRanges src d n) (collectFoldingRanges src k root).
Proof.
  intros N n l Ch. induction Ch as [|n p l I Ch IH]; intros F L M A.
  - exists k. simpl. split; [lia|apply incl_refl].
  - cbn [tl] in F. cbn [List.length] in L.
    assert (Fp : open_node p /\ Forall open_node (tl l)) by (destruct Ch; inversion F; subst; auto).
    destruct Fp as [[P1 P2] Ft].
    assert (P3 : kind_of p <> NK_Misc) by (intros E; destruct p; try discriminate; destruct I).
    destruct (IH Ft ltac:(lia) P3 P2) as (d & Hd & In1). destruct d as [|d]; [lia|].
    pose proof (typed_of _ _ _ N (chain_node _ _ _ Ch) P3) as T.
    cut (exists d', d <= d' /\ incl (collectFoldingRanges src d' n) (collectFoldingRanges src (S d) p)).
    { intros (d' & H1 & H2). exists d'. cbn [List.length]. split; [lia|]. eapply incl_tran; eauto. }
    assert (X : incl (over_children (collectFoldingRanges src d) p) (collectFoldingRanges src (S d) p) ->
      exists d', d <= d' /\ incl (collectFoldingRanges src d' n) (collectFoldingRanges src (S d) p)).
    { intros Y. exists d. split; [lia|]. intros r R. apply Y. eapply over_children_has; eauto. }
    clear IH In1. destruct p; try (apply X; cbn [collectFoldingRanges]; apply incl_refl; fail);
      try (exfalso; apply P1; reflexivity); try (apply X; cbn [collectFoldingRanges]; apply incl_appr; apply incl_refl);
      apply present_in in I; cbn [children] in I; cbn [typed] in T.
    + destruct I as [->|[->|[]]].
      * destruct T as (T & _). simpl in T. exists (S d). split; [lia|]. destruct n; try discriminate T.
        cbn [collectFoldingRanges ofor]. apply incl_appr. apply incl_refl.
      * destruct T as (_ & T & _). simpl in T. contradiction.
    + exists d. split; [lia|]. cbn [collectFoldingRanges]. destruct T as (T1 & T2 & _).
      destruct I as [I|[->|[->|[->|[]]]]].
      * injection I as ->. contradiction.
      * apply incl_appr, incl_appl, incl_refl.
      * simpl in T2. contradiction.
      * apply incl_appr, incl_appr, incl_refl.
    + exists d. split; [lia|]. cbn [collectFoldingRanges]. destruct T as (T1 & T2 & _).
      destruct I as [I|[->|[->|[->|[]]]]].
      * injection I as ->. contradiction.
      * simpl in T2. contradiction.
      * apply incl_appr, incl_appl, incl_refl.
      * apply incl_appr, incl_appr, incl_refl.
    + exists d. split; [lia|]. cbn [collectFoldingRanges]. destruct T as (T1 & _).
      destruct I as [->|[->|[]]]; [simpl in T1; contradiction|]. apply incl_appr, incl_refl.
Qed.

Lemma fold_complete src root n l : nok src root -> chain root n l -> Forall open_node (tl l) -> List.length l <= 256 ->
  foldable n -> multi_line n -> In (toLSPRange src (nrange n)) (foldingRanges src root).
Proof.
  intros N Ch F L Fo Mu.
  assert (K1 : kind_of n <> NK_Misc) by (intros E; unfold foldable in Fo; now rewrite E in Fo).
  assert (K2 : kind_of n <> NK_LambdaArg) by (intros E; unfold foldable in Fo; now rewrite E in Fo).
  destruct (fold_visits src root 256 N n l Ch F L K1 K2) as (d & Hd & H). apply H.
  destruct d as [|d]; [lia|].
  assert (R : range_in src (nrange n)).
  { destruct (node_of_shape _ _ _ N (chain_node _ _ _ Ch)) as [X|X]; [exact (nok_range _ _ X)|contradiction]. }
  assert (A : In (toLSPRange src (nrange n)) (addFoldingRange src n)).
  { unfold addFoldingRange. apply (multi_line_ok _ _ R) in Mu. rewrite Mu. now left. }
  unfold foldable in Fo. destruct n; try (destruct Fo; fail); cbn [collectFoldingRanges]; rewrite ?in_app_iff; auto.
Qed.

(** ** C38 *)
Lemma codepoints_prefix u w : forall k, exists r, codepoints k (u ++ w) = codepoints k u ++ r.
Proof.
  induction u as [|c u IH]; intros k; [now exists (codepoints k w)|]. cbn [app codepoints]. destruct k as [|k]; [|apply IH].
  destruct (IH (fst (lead c) - 1)) as [r ->]. now exists r.
Qed.
Lemma units_grow l : forall n, n <= fold_left (fun n (cp : nat * nat) => n + snd cp) l n.
Proof. induction l as [|x l IH]; intros n; simpl; [lia|]. specialize (IH (n + snd x)). lia. Qed.
Lemma lspLength_prefix u w : lspLength u <= lspLength (u ++ w).
Proof.
  unfold lspLength. destruct (codepoints_prefix u w 0) as [r ->]. rewrite fold_left_app. apply units_grow.
Qed.
Lemma after_last_plain w : count_lf w = 0 -> forall x acc, after_last_lf (x ++ w) acc = after_last_lf x acc ++ w.
Proof.
  intros W x. induction x as [|c x IH]; intros acc; cbn [app after_last_lf].
  - revert acc. induction w as [|c w IHw]; intros acc; cbn [after_last_lf]; [now rewrite app_nil_r|].
    unfold count_lf in W. cbn [filter] in W. destruct (is_lf c); [discriminate|]. rewrite IHw by exact W.
    simpl. now rewrite <- app_assoc.
  - destruct (is_lf c); apply IH.
Qed.
Lemma position_mono src i j : i <= j -> lle (offsetToPosition src i) (offsetToPosition src j).
Proof.
  intros H. unfold offsetToPosition, lle. cbn [p_line p_char].
  assert (exists w, firstn (Nat.min (List.length src) j) src = firstn (Nat.min (List.length src) i) src ++ w) as [w ->].
  { exists (firstn (Nat.min (List.length src) j - Nat.min (List.length src) i) (skipn (Nat.min (List.length src) i) src)).
    rewrite firstn_skipn_comm. rewrite <- (firstn_skipn (Nat.min (List.length src) i) (firstn (Nat.min (List.length src) j) src)) at 1.
    rewrite firstn_firstn. f_equal; f_equal; lia || (f_equal; lia). }
  set (u := firstn _ src).
  assert (E : count_lf (u ++ w) = count_lf u + count_lf w) by (unfold count_lf; rewrite filter_app, app_length; reflexivity).
  rewrite E. destruct (count_lf w) as [|k] eqn:W; [right; split; [lia|]|left; lia].
  rewrite after_last_plain by exact W. pose proof (lspLength_prefix (after_last_lf u []) w). lia.
Qed.

Section Neat.
Variable vs : vst.
Variable vsrc : bytes.
Definition neat (x : symbol) : Prop := forall y, symbol_of x y -> linside (s_sel y) (s_full y) /\ shows vs vsrc y.
Lemma neat_intro name d k dep full sel kids : linside sel full -> shows vs vsrc (Symbol name d k dep full sel kids) -> Forall neat kids ->
  neat (Symbol name d k dep full sel kids).
Proof.
  intros H Sh F y S. inversion S; subst; [auto|]. rewrite Forall_forall in F. eapply F; eauto.
Qed.
Lemma linside_refl r : linside r r.
Proof. unfold linside, lle. lia. Qed.
Definition fineq (x : res (list symbol)) : Prop := exists l, x = Ok l /\ Forall neat l.
Lemma rcat_ok x y : fineq x -> fineq y -> fineq (rcat x y).
Proof.
  intros (a & -> & A) (c & -> & C). exists (a ++ c). split; [reflexivity|]. now apply Forall_app.
Qed.
Lemma rflat_ok {A} (f : A -> res (list symbol)) l : (forall x, In x l -> fineq (f x)) -> fineq (rflat f l).
Proof.
  induction l as [|x l IH]; intros H; [exists []; split; [reflexivity|constructor]|].
  change (fineq (rcat (f x) (rflat f l))). apply rcat_ok; [apply H; now left|]. apply IH. intros; apply H; now right.
Qed.
Lemma rofor_ok f o : (forall c, o = Some c -> fineq (f c)) -> fineq (rofor f o).
Proof. destruct o as [c|]; intros H; [now apply H|]. exists []. split; [reflexivity|constructor]. Qed.
Lemma rover_ok f n : (forall c, In (Some c) (children n) -> fineq (f c)) -> fineq (rover f n).
Proof.
  intros H. assert (Z : fineq (Ok [])) by (exists []; split; [reflexivity|constructor]).
  destruct n; cbn [rover children] in *; try exact Z;
    repeat first [apply rcat_ok | apply rofor_ok; intros ? -> | apply rflat_ok; intros ? ? ]; try (apply H; simpl; tauto);
    try (apply H; simpl; rewrite ?in_app_iff, ?in_map_iff; simpl; eauto 8; fail).
  - destruct x as [|m]; [exact Z|]. apply H. apply in_map. apply in_flat_map. exists (inr m). simpl; auto.
  - apply H. apply in_map. apply in_app_iff. auto.
  - apply H. apply in_map. apply in_app_iff. auto.
  - destruct ell as [m|]; [apply H; simpl; auto|]. apply rcat_ok; apply rofor_ok; intros ? ->; apply H; simpl; auto.
Qed.
End Neat.
Lemma shows_other v src name d k full sel kids : bytes_eqb d (b "identifier") = false -> shows v src (Symbol name d k false full sel kids).
Proof.
  intros H. split; [|discriminate]. cbn [s_detail]. intros ->. discriminate.
Qed.
Lemma richVar_shows v src n : kind_of n = NK_ExprVar -> shows v src (richVar v src n).
Proof.
  intros K. unfold richVar. destruct (_ || _)%bool; [apply shows_other; reflexivity|]. destruct (bytes_eqb _ _); [apply shows_other; reflexivity|].
  destruct (query v n) as [[|d|d]|] eqn:Q; (split; [intros _; exists n|reflexivity || discriminate]);
    (split; [exact K|split; [reflexivity|split; [reflexivity|]]]); cbn [s_deprecated]; unfold unknown; rewrite Q;
    try (split; [discriminate|intros U; destruct (U d); congruence]); (split; [intros _ d; split; discriminate|reflexivity]).
Qed.
Lemma range_lsp_inside src (r r' : range) : inside r r' -> linside (toLSPRange src r) (toLSPRange src r').
Proof. intros [H1 H2]. split; apply position_mono; assumption. Qed.
Lemma leaf_neat v src x y k n : bytes_eqb y (b "identifier") = false -> fineq v src (Ok (leaf src x y k n)).
Proof.
  intros Hy.
  eexists. split; [reflexivity|]. constructor; [|constructor]. apply neat_intro; [apply linside_refl|now apply shows_other|constructor].
Qed.

Lemma collect_neat s src k : forall n, vsize n <= k -> sok src n -> fineq s src (collect s src n).
Proof.
  induction k as [|k IH]; intros n Hk S; [destruct n; simpl in Hk; lia|].
  assert (D : forall c, In (Some c) (children n) -> fineq s src (collect s src c)).
  { intros c I. apply present_in in I. pose proof (child_vsize _ _ I).
    apply IH; [lia|]. exact (within_sok _ _ _ (field_child _ _ I) S). }
  pose proof (rover_ok s src (collect s src) n D) as X.
  pose proof (sok_local _ _ S) as (_ & _ & Ty & _).
  destruct n; try exact X; cbn [collect]; try (apply leaf_neat; reflexivity); clear X.
  - eexists. split; [reflexivity|]. constructor; [|constructor].
    match goal with |- neat _ _ (richVar _ _ ?v) => assert (Sh := richVar_shows s src v eq_refl) end. revert Sh. unfold richVar.
    repeat match goal with
    | |- context [if ?x then _ else _] => destruct x
    | |- context [match query ?a ?b with _ => _ end] => destruct (query a b) as [[]|]
    end; intros Sh; (apply neat_intro; [apply linside_refl|exact Sh|constructor]).
  - assert (A : forall key v name, sok src key -> sok src v -> vsize v <= k -> off (nr key) <= off (nr v) ->
                  fineq s src (let* kids := collect s src v in Ok [attrSymbol src name key v kids])).
    { intros key v name Sk Sv Hv O. destruct (IH v Hv Sv) as (kids & -> & F). eexists. split; [reflexivity|].
      constructor; [|constructor]. apply neat_intro; [|now apply shows_other|exact F].
      split; apply position_mono; [apply le_n|exact O]. }
    destruct Ty as (_ & _ & T1 & T2). rewrite Forall_forall in T1, T2. apply rcat_ok; apply rflat_ok.
    + intros kv I. destruct (field_static id r body rc st dy kv I) as [W1 W2].
      destruct (static_vsize id r body rc st dy kv I) as [V _]. apply T1 in I as (_ & _ & O & _).
      destruct kv as [x [[a key] v]]. cbn [snd a_value a_key fst] in *. apply A; auto.
      * exact (within_sok _ _ _ W2 S).
      * exact (within_sok _ _ _ W1 S).
      * lia.
    + intros a I. destruct (field_dynamic id r body rc st dy a I) as [W1 W2].
      destruct (dynamic_vsize id r body rc st dy a I) as [V _]. apply T2 in I as (_ & _ & O & _).
      destruct a as [[a key] v]. cbn [snd a_value a_key fst] in *. apply A; auto.
      * exact (within_sok _ _ _ W2 S).
      * exact (within_sok _ _ _ W1 S).
      * lia.
  - destruct (rflat_ok s src (collect s src) els) as (kids & -> & F).
    { intros c I. apply D. cbn [children]. now apply in_map. }
    eexists. split; [reflexivity|]. constructor; [|constructor]. apply neat_intro; [apply linside_refl|now apply shows_other|exact F].
  - destruct (rofor_ok s src (collect s src) body) as (kids & -> & F).
    { intros c ->. apply D. simpl. auto. }
    cbn [bind].
    assert (Arg : arg <> None -> exists ai ar i f, arg = Some (NLambdaArg ai ar i f)).
    { destruct arg as [a|]; [intros _|congruence]. destruct Ty as [Ta _]. destruct a; try discriminate Ta. eauto. }
    assert (exists sel, getLambdaSelectionRange src (NLambda id r arg body) arg = Ok sel /\
                        linside sel (toLSPRange src r)) as (sel & E & L).
    { destruct arg as [a|]; [|eexists; split; [reflexivity|apply linside_refl]].
      destruct Arg as (ai & ar & i & f & [= ->]); [discriminate|].
      assert (Wa : within (NLambda id r (Some (NLambdaArg ai ar i f)) body) (NLambdaArg ai ar i f)).
      { apply field_child. apply present_in. simpl. auto. }
      pose proof (within_sok _ _ _ Wa S) as Sa. pose proof (sok_local _ _ Sa) as (_ & _ & _ & Hif).
      assert (Ia : inside ar r).
      { apply (sok_inside src _ (NLambdaArg ai ar i f) S); [discriminate|]. unfold proper. cbn [children].
        rewrite present_cons. left. reflexivity. }
      assert (T : forall m, In (Some m) [i; f] -> linside (toLSPRange src (nrange m)) (toLSPRange src r)).
      { intros m Im. apply range_lsp_inside.
        assert (Ja : inside (nrange m) ar).
        { apply (sok_inside src _ m Sa); [discriminate|]. unfold proper. apply present_in. exact Im. }
        destruct Ja, Ia. split; lia. }
      destruct i as [i|]; [eexists; split; [reflexivity|apply T; simpl; auto]|].
      destruct f as [f|]; [eexists; split; [reflexivity|apply T; simpl; auto]|]. destruct Hif; congruence. }
    rewrite E. eexists. split; [reflexivity|]. constructor; [|constructor]. apply neat_intro; [exact L|now apply shows_other|exact F].
Qed.
Lemma collect_ok s src n ds : parse src = Ok (Some n, ds) ->
  exists l, collect s src n = Ok l /\ forall x y, In x l -> symbol_of x y -> linside (s_sel y) (s_full y) /\ shows s src y.
Proof.
  intros H. pose proof (parse_ok src) as P. rewrite H in P. destruct P as (_ & P & _).
  destruct (P n eq_refl) as [(k & F & _) _].
  destruct (collect_neat s src (vsize n) n (le_n _)) as (l & E & N); [apply F|].
  exists l. split; [exact E|]. intros x y I. rewrite Forall_forall in N. exact (N x I y).
Qed.
