(** Operators and the legacy let. *)
From Coq Require Import Permutation.
From Verif Require Import Base Diag LexModel LexSpec LexProofs AstModel PSupModel SemaModel ParseModel ParseSpec FixSpec
  ParseInv ParseTree ParseSema ParseStep ParseFun ParseFun2 ParseFun4.

Section Fun.
Variable src : bytes.
Notation sok := (sok src). Notation nok := (nok src). Notation local := (local src).
Notation Inv := (Inv src). Notation wp := (wp src). Notation dok := (dok src).
Notation tokok := (tokok src). Notation grp := (grp src). Notation fine := (fine src).
Notation starts := (starts src). Notation pre := (pre src). Notation post := (post src).
Notation len := (List.length src).

Variable fuel : nat.
Variable rec : nt -> P (option node).
Hypothesis R : RecOK src fuel rec.

Lemma is_bin_bp k : isBinOp k = true -> exists l r, getBP k = Some (l, r).
Proof. destruct k; try discriminate; intros _; eexists; eexists; reflexivity. Qed.
Lemma is_bin_real k : isBinOp k = true -> k <> tok_eof /\ k <> tok_path_end.
Proof. destruct k; try discriminate; intros _; split; discriminate. Qed.

Lemma fun_oploop bp p s : let q := QOpLoop bp p in
  Inv s -> pre q s -> T src q s <= fuel -> wp (parseExprOpLoop rec bp p) (post q s) s.
Proof.
  intros q I [Hm ((Cin & a0 & Ha0 & G) & Hp & Hh & Hcl)] Ht. subst q. unfold T in Ht. cbn [rank] in Ht. facts s.
  pose proof (Forall_inv (g_ok src _ _ _ _ _ G)) as Np. pose proof (expr_ne src p Np Hp) as Hlt.
  pose proof (Forall_inv (g_in src _ _ _ _ _ G)) as [_ Gp].
  bnd. pk t bf s1.
  assert (Rec : forall n s2, Inv s2 -> mvd s s2 -> base s < base s2 -> plast s2 <> None -> is_expr n -> nl n = nl p ->
     (nd s2 = 0 -> nr n = lastc s2) -> off (nr n) <= lastpos s2 ->
     (forall a, a <= pnid s -> grp (off (nl p)) (lastpos s) a (pnid s) [p] -> fine a (pnid s2) n) ->
     wp (rec (QOpLoop bp n)) (post (QOpLoop bp p) s) s2).
  { intros n s2 I2 M2 Hb Hpl Hn El Hc He Hf. dd. facts s2. rc m s3.
    - split; [congruence|]. rewrite El. split.
      { split; [assumption|]. exists a0. split; [lia|]. apply fine_grp; [auto|rewrite El; lia|assumption]. }
      auto.
    - nn.
    - tail; [auto| |].
      + cbn [begins]. rewrite El. auto.
      + cbn [accum]. intros a Ha Hi. split; [lia|]. unfold lids at 1. cbn [flat_map]. rewrite app_nil_r.
        apply (Hf a Ha). apply (grp_reid src _ _ a0 _ a _ G Hi). }
  assert (Bin : forall rbp what s2, Inv s2 -> stl s1 s2 -> tk t <> tok_eof -> tk t <> tok_path_end ->
     wp (do! consume in
    do! assertLast in
    let! io := fresh in
    let! rhs := rec (QOp rbp) in
    match rhs with
    | None => do! diagNullExpr what in rec (QOpLoop bp p)
    | Some rn =>
        let! i := fresh in
        rec (QOpLoop bp (NBinOp i (mkRange (nl p) (nr rn)) (NOp io (trange t) (tk t))
                                (Some p) (Some rn)))
    end) (post (QOpLoop bp p) s) s2).
  { intros rbp what s2 I2 S2 K1 K2. dd. facts s2. tolt t. bnd. cs t bf s3. bnd. al. bnd. fr s4. bnd.
    rc rn s5; [split; [congruence|exact Logic.I]| |].
    - bnd. dn s6. apply Rec; auto; [mv|lia|has|lia|lia|]. intros a Ha Ga. eapply fine_mono; [eapply fine_one; exact Ga|..]; lia.
    - plain_facts rn. bnd. fr s6. apply Rec; auto; [mv|lia|has|reflexivity| | |].
      + cln. cb. congruence.
      + cb. lia.
      + intros a Ha Ga. mk ([p] ++ [NOp (pnid s3) (trange t) (tk t)] ++ [rn]) a (pnid s5).
        * cat_ (lastpos s) (pnid s); [exact Ga|]. cat_ (lastpos s3) (pnid s4).
        * cbn [app]. apply perm_swap.
        * split; [reflexivity|]. split; assumption. }
  destruct (isBinOp (tk t)) eqn:Eb.
  - destruct (is_bin_real _ Eb). destruct (is_bin_bp _ Eb) as (l & r & ->).
    destruct (Nat.ltb l bp).
    + apply wp_ret. fin.
      * apply (fine_mono src a (pnid s)); [|lia|lia]. apply (fine_one src _ _ _ _ _ (grp_reid src _ _ a0 _ a _ G Hi)).
      * exact Hp.
      * reflexivity.
      * unfold nr in *. lia.
      * cln. unfold nr in *. congruence.
    + bnd. destruct (Nat.eqb bp l).
      * em s2; [apply dok_0; [assumption|reflexivity]|]. apply Bin; auto. constructor; congruence || lia.
      * apply wp_ret. apply Bin; auto. apply stl_refl.
  - assert (Stop : wp (ok_ p) (post (QOpLoop bp p) s) s1).
    { apply wp_ret. fin.
      * apply (fine_mono src a (pnid s)); [|lia|lia]. apply (fine_one src _ _ _ _ _ (grp_reid src _ _ a0 _ a _ G Hi)).
      * exact Hp.
      * reflexivity.
      * unfold nr in *. lia.
      * cln. unfold nr in *. congruence. }
    destruct (tk t) eqn:Ek; try exact Stop.
    + (* or *) bnd. apply wp_fix1_edit; [discriminate|]. bnd. em s2.
      { apply dok_fix; [| |apply dok_0; [assumption|reflexivity]]; [apply fix_one; split; [assumption|left; discriminate]|].
        apply keeps_or; [|reflexivity]. match goal with K : ParseInv.tokok _ _ t |- _ => split; [|reflexivity]; apply (tok_text _ _ _ _ K); now rewrite Ek end. }
      apply Bin; auto; try discriminate; try congruence. constructor; congruence || lia.
    + (* question *) tolt t. bnd. cs t bf s2. bnd. al. bnd. fr s3. bnd. oc path s4; [split; [congruence|exact Logic.I]|].
      bnd. tl. bnd. fr s5. lastin s4. apply Rec; auto; [mv|lia|has|reflexivity|try (cb; intros; first [congruence|lia])..|].
      * intros a Ha Ga. mk ([p] ++ optlist path) a (pnid s4).
        -- cat_ (lastpos s) (pnid s). exact Ga.
        -- reflexivity.
        -- split; [reflexivity|]. split; [assumption|ok_kind].
        -- eapply fine_sok. eapply (op_fine src (pnid s2) t _ _ (pnid s2) (S (pnid s2))); [eassumption|congruence|congruence|lia].
        -- constructor.
Qed.

Lemma fun_op bp s : Inv s -> pre (QOp bp) s -> T src (QOp bp) s <= fuel -> wp (parseExprOpBP rec bp) (post (QOp bp) s) s.
Proof.
  intros I [Hm _] Ht. unfold T in Ht. cbn [rank] in Ht. facts s. bnd. pk t bf s1. bnd. pkf t bf. bnd.
  assert (Fin : forall o s2, Inv s2 -> mvd s s2 -> ores src QApp s o s2 ->
     wp (match o with None => ret None | Some p => rec (QOpLoop bp p) end) (post (QOp bp) s) s2).
  { intros o s2 I2 M2 [O1 O2 O3 O4 O5 O6 O7]. dd. facts s2. destruct o as [p|].
    2:{ apply wp_ret. none. }
    simpl in O1, O2, O3, O4, O7. pose proof (nok_range src p (proj1 O1)) as (R1 & R2 & _).
    rc n s3.
    - split; [congruence|]. split.
      { split; [assumption|]. exists (pnid s). split; [lia|]. apply fine_grp; auto; lia. }
      split; [assumption|]. split; [apply O6; discriminate|assumption].
    - nn.
    - tail; [auto| |].
      + cbn [begins]. intros ->. apply O7. discriminate.
      + cbn [accum]. intros a Ha Hi. split; [lia|]. unfold lids. cbn [flat_map]. rewrite app_nil_r. eapply idl_mono; [apply O1|..]; lia. }
  assert (App : wp (rec QApp) (fun o s2 => wp (match o with None => ret None | Some p => rec (QOpLoop bp p) end) (post (QOp bp) s) s2) s1).
  { oc o s2; [split; [congruence|exact Logic.I]|]. apply Fin; auto; [mv|].
    match goal with H : ores _ _ _ _ _ |- _ => destruct H as [O1 O2 O3 O4 O5 O6 O7] end. constructor; auto.
    - destruct o; [|exact Logic.I]. simpl in *. eapply fine_mono; eauto; lia.
    - destruct o; [|exact Logic.I]. simpl in *. lia.
    - cln. destruct o; congruence.
    - intros _. specialize (O7 ltac:(discriminate)). destruct o as [p|]; [|exact Logic.I]. simpl in *.
      match goal with B : pbuf s1 = _ |- _ => rewrite (starts_front src _ _ _ _ B O7) end. assumption. }
  assert (Un : tk t = tok_op_not \/ tk t = tok_op_negate -> wp (do! consume in
         do! assertLast in
         let! io := fresh in
         let! e := rec (QOp (getUnaryBP (tk t))) in
         do! (match e with
              | Some _ => ret tt
              | None => match tk t with
                        | tok_op_not => diagNullExpr "unary operator !"
                        | _ => diagNullExpr "unary operator -"
                        end
              end) in
         let! r := toLast (lcur (trange t)) in
         let! i := fresh in
         ok_ (NUnary i r (NOp io (trange t) (tk t)) e))
      (fun o s2 => wp (match o with None => ret None | Some p => rec (QOpLoop bp p) end) (post (QOp bp) s) s2) s1).
  { intros K. assert (K1 : tk t <> tok_eof /\ tk t <> tok_path_end) by (destruct K as [-> | ->]; split; discriminate). destruct K1.
    tolt t. bnd. cs t bf s2. bnd. al. bnd. fr s3. bnd. oc e s4; [split; [congruence|exact Logic.I]|]. bnd.
    assert (Fin2 : forall s5, Inv s5 -> stl s4 s5 -> wp (let! r := toLast (lcur (trange t)) in
         let! i := fresh in
         ok_ (NUnary i r (NOp (pnid s2) (trange t) (tk t)) e))
      (fun o s2 => wp (match o with None => ret None | Some p => rec (QOpLoop bp p) end) (post (QOp bp) s) s2) s5).
    { intros s5 I5 S5. dd. facts s5. bnd. tl. bnd. fr s6. lastin s5. apply wp_ret. apply (Fin (Some _)); auto; [mv|]. constructor; simpl.
      - mk ([NOp (pnid s2) (trange t) (tk t)] ++ optlist e) (pnid s2) (pnid s4).
        + cat_ (lastpos s2) (pnid s3).
        + reflexivity.
        + split; [reflexivity|ok_kind].
      - reflexivity.
      - cb. lia.
      - cb. congruence.
      - discriminate.
      - intros _. has.
      - intros _. cb. assumption. }
    destruct e as [e|].
    - apply wp_ret. apply Fin2; auto. apply stl_refl.
    - destruct K as [E|E]; rewrite E; dn s5; rewrite <- E; apply Fin2; auto; constructor; congruence || lia. }
  destruct (tk t) eqn:Ek; try exact App; apply Un; auto.
Qed.

Lemma body_in l bd v : body_binding l = Some (bd, Some v) ->
  In bd l /\ exists i r p q, bd = NBinding i r p (Some v) q.
Proof.
  induction l as [|x l IH]; [discriminate|]. cbn [body_binding]. intros H.
  assert (K : body_binding l = Some (bd, Some v) -> In bd (x :: l) /\ exists i r p q, bd = NBinding i r p (Some v) q)
    by (intros E; destruct (IH E); split; [right|]; auto).
  destruct x; auto. destruct (path_names x); auto. destruct (staticName n); auto. match type of H with (if ?c then _ else _) = _ => destruct c end; auto.
  inversion H; subst. split; [left; reflexivity|]. eauto.
Qed.
Lemma nsrc_ok v : sok v -> nsrc src v = Ok (slice src (off (nl v)) (off (nr v))).
Proof.
  intros H. pose proof (sok_range src v H) as (R1 & _ & R3). apply cursor_in_len in R1. unfold nsrc, slice.
  replace (Nat.ltb len (off (nl v))) with false by (symmetry; apply Nat.ltb_ge; exact R1).
  replace (Nat.ltb (off (nr v)) (off (nl v))) with false by (symmetry; apply Nat.ltb_ge; exact R3). reflexivity.
Qed.
Lemma binds_inside bn bd : nok bn -> is_kind NK_Binds bn -> In bd (binds_list (Some bn)) ->
  nok bd /\ off (nl bn) <= off (nl bd) /\ off (nr bd) <= off (nr bn).
Proof.
  intros [Hs Hn] K H. destruct bn; try discriminate. cbn [binds_list] in H.
  pose proof (sok_inv src _ Hs) as (_ & P & _). rewrite nodes_eq in Hn. inversion Hn as [|? ? [S1 _] S2]; subst.
  unfold proper in P, S1, S2. cbn [children] in P, S1, S2. rewrite present_map in P, S1, S2. rewrite Forall_forall in P, S1.
  split; [split; [auto|]|].
  - match type of H with In _ ?l0 => clear - S2 H; induction l0 as [|x l IH]; [destruct H|] end. cbn [flat_map] in S2. apply Forall_app in S2 as [A B].
    destruct H as [->|H]; auto.
  - specialize (S1 bd H). destruct S1. cb. auto.
Qed.

Lemma fun_legacylet s : Inv s -> pre QLegacyLet s -> T src QLegacyLet s <= fuel ->
  wp (parseExprLegacyLet src rec) (post QLegacyLet s) s.
Proof.
  intros I [Hm (t & t2 & bf & Eb & Ek & Ek2)] Ht. unfold T in Ht. cbn [rank] in Ht. facts s. frontk t (t2 :: bf) s Eb I. tolt t.
  bnd. pkf t (t2 :: bf). bnd. pkf t (t2 :: bf). bnd. ps. bnd. fr s1. bnd. cs t (t2 :: bf) s2. sy s3.
  assert (B3 : pbuf s3 = t2 :: bf) by congruence.
  match goal with H : Inv s3 |- _ => pose proof H as I3 end. frontk t2 bf s3 B3 I3. tolt t2.
  bnd. pkf t2 bf. bnd. apply (wp_expect_front src t2 bf); auto. intros s4 ? ?. dd. facts s4. bnd. cs t2 bf s5. bnd. al. bnd.
  oc bs s6; [split; [congruence|exact Logic.I]|]. bnd. apply wp_lastR; [has|].
  assert (Sk : sok (NMisc (pnid s) (trange t))).
  { eapply fine_sok. eapply (misc_fine src (pnid s) t _ (pnid s) (S (pnid s))); eauto; congruence. }
  assert (Fin : forall rr s7, Inv s7 -> mvd s6 s7 -> range_in src rr -> lastpos s6 <= off (lcur rr) ->
     (text_of src rr = b "}" \/ lcur rr = rcur rr) ->
     wp (let! ar := toLast (lcur (trange t)) in
    let! attrs := onExprAttrs ar bs (Some (NMisc (pnid s) (trange t))) in
    let! full := toLast (lcur (trange t)) in
    let hasBody := match attrs_sema attrs with
                   | Some sa => is_some (sfind (b "body") (sa_static sa))
                   | None => false
                   end in
    do! emit (diag0 DK_DeprecatedLet full) in
    do! (if hasBody then
           match body_binding (binds_list bs) with
           | Some (bd, Some v) =>
               let! e1 := lift (mkRemoval (trange t2)) in
               let! e2 := lift (mkRemoval (nrange bd)) in
               let! text := lift (nsrc src v) in
               let! e3 := lift (mkEdit rr (b "in " ++ text)) in
               upd_last (d_fix (Fix_ (b "convert to `let ... in ...`") [e1; e2; e3]))
           | _ => ret tt
           end
         else emit (diag0 DK_LetAttrsMissingBody full)) in
    let! i := fresh in
    ok_ (NLegacyLet i full (NMisc (pnid s) (trange t)) (Some attrs))) (closing src tok_r_curly (psync s2) (post QLegacyLet s)) s7).
  { intros rr s7 I7 M7 Rr Lr Tr. dd. facts s7. lastin s7. bnd. tl. bnd.
    apply wp_onExprAttrs; [assumption|ok_sok|split; [exact Sk|reflexivity]|].
    intros i st dy s8 ? ? ? Hty Hex. dd. facts s8. bnd. tl.
    assert (Lr8 : cursor_in src (lastc s8)) by (replace (lastc s8) with (lastc s7) by congruence; exact Li).
    assert (Rf : range_in src (mkRange (lcur (trange t)) (lastc s8))) by (split; [assumption|split; [exact Lr8|simpl; lia]]).
    bnd. em s9; [apply dok_0; [exact Rf|reflexivity]|]. bnd.
    assert (Fin2 : forall s10, Inv s10 -> stl s9 s10 -> wp (
      let! j := fresh in
      ok_ (NLegacyLet j (mkRange (lcur (trange t)) (lastc s8)) (NMisc (pnid s) (trange t))
         (Some (NAttrs i (mkRange (lcur (trange t)) (lastc s7)) bs (Some (NMisc (pnid s) (trange t))) st dy))))
      (closing src tok_r_curly (psync s2) (post QLegacyLet s)) s10).
    { intros s10 I10 S10. dd. facts s10. bnd. fr s11. apply wp_ret. ys s12. fin; [|here].
      mk ([NAttrs i (mkRange (lcur (trange t)) (lastc s7)) bs (Some (NMisc (pnid s) (trange t))) st dy]) (pnid s5) (pnid s8).
      - apply fine_grp; [|cb; lia|cb; lia].
        apply (mk_ok src _ (optlist bs) (pnid s5) (pnid s6)); [cb; pf|reflexivity| |exact Hex|lia|lia|cb; lia|cb; lia].
        apply local_mk; cb; auto; try lia. left. unfold inside. cbn [nrange lcur rcur]. lia.
      - reflexivity.
      - red. unfold inside. cbn [nrange lcur rcur]. lia.
      - split; reflexivity.
      - exact Sk.
      - constructor. }
    destruct (match attrs_sema _ with Some sa => is_some (sfind (b "body") (sa_static sa)) | None => false end).
    2:{ em s10; [apply dok_0; [exact Rf|reflexivity]|]. apply Fin2; auto. constructor; congruence || lia. }
    destruct (body_binding (binds_list bs)) as [[bd [v|]]|] eqn:Eb3; try (apply wp_ret, Fin2; auto; apply stl_refl).
    destruct (body_in _ _ _ Eb3) as [Hin (bi & br & bp & bq & ->)].
    destruct bs as [bn|]; [|destruct Hin].
    match goal with H : ores _ _ _ _ _ |- _ => destruct H as [F1 F2 F3 _ _ _ _] end. simpl in F1, F2, F3.
    destruct (binds_inside bn _ (proj1 F1) F2 Hin) as (Nb & L1 & L2).
    pose proof (nok_ne src _ Nb ltac:(discriminate)) as Hbl. pose proof (nok_range src _ Nb) as Rb.
    destruct (sok_inv src _ (proj1 Nb)) as (_ & Pb & _). unfold proper in Pb. cbn [children] in Pb.
    rewrite !present_cons in Pb. cbn [optlist app] in Pb. apply Forall_inv_tail in Pb. apply Forall_app in Pb as [_ Pb].
    apply Forall_inv in Pb. pose proof (nsrc_ok v Pb) as Ew.
    assert (Iv : inside (nrange v) (nrange (NBinding bi br bp (Some v) bq))).
    { destruct Nb as [_ Hb]. rewrite nodes_eq in Hb. apply Forall_inv in Hb. destruct Hb as [S1 _]. rewrite Forall_forall in S1. apply S1.
      unfold proper. cbn [children]. rewrite !present_cons, !in_app_iff. cbn [optlist In]. tauto. }
    pose proof (proj2 (proj2 (sok_range src v Pb))) as Lv.
    cb. bnd. rewrite mkRemoval_ok by assumption. apply wp_lift. bnd. rewrite mkRemoval_ok by assumption. apply wp_lift.
    bnd. rewrite Ew. apply wp_lift. bnd. rewrite mkEdit_ok by discriminate. apply wp_lift.
    apply wp_upd_last; [assumption|lia| |].
    - intros d Hd. apply dok_fix; [| |exact Hd]; [split; cbn [f_edits]|].
      + constructor; [now apply edit_rem|]. constructor; [now apply edit_rem|]. constructor; [|constructor].
        split; [exact Rr|left; discriminate].
      + constructor; [constructor; [|constructor; [|constructor]]|constructor; [constructor; [|constructor]|constructor; constructor]];
          unfold apart; cbn [e_range]; lia.
      + cbn [f_msg f_edits]. destruct Iv as [Iv1 Iv2]. cbn [nrange] in Iv1, Iv2.
        apply (keeps_let _ _ _ _ _ (off (nl v)) (off (nr v))); cbn [e_range e_text]; [tokr|reflexivity|unfold before; cbn [e_range]; lia|unfold before; cbn [e_range]; lia|exact Iv1|exact Lv|exact Iv2|reflexivity|exact Tr].
    - intros s10 I10 S10 N10. apply Fin2; auto. }
  bnd. ex t3 bf3 s7.
  - tolt t3. bnd. bnd. cs t3 bf3 s8. apply wp_ret. apply Fin; auto; [mv|lia|].
    left. match goal with K : ParseInv.tokok _ _ t3 |- _ => apply (tok_text _ _ _ _ K) end. match goal with E : tk t3 = _ |- _ => now rewrite E end.
  - bnd. bnd. nm s8. apply wp_ret. apply Fin; auto; [mv|]. lastin s6. apply range_point. assumption.
Qed.
End Fun.
