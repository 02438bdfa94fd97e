(** Strings and paths. *)
From Coq Require Import Permutation.
From Verif Require Import Base Diag LexModel LexSpec LexProofs AstModel PSupModel SemaModel ParseModel ParseSpec FixSpec
  ParseInv ParseTree ParseSema ParseStep ParseFun ParseFun2 ParseFun4.

Section Fun.
Variable src : bytes.
Notation sok := (sok src). Notation nok := (nok src). Notation local := (local src).
Notation Inv := (Inv src). Notation wp := (wp src). Notation dok := (dok src).
Notation tokok := (tokok src). Notation grp := (grp src). Notation fine := (fine src).
Notation starts := (starts src). Notation pre := (pre src). Notation post := (post src).
Notation len := (List.length src).

Variable fuel : nat.
Variable rec : nt -> P (option node).
Hypothesis R : RecOK src fuel rec.

Lemma path_class c : path_char c -> isPathOrSlash c = true.
Proof.
  unfold path_char, one_of. intros H. cbv in H. repeat (destruct H as [<-|H]; [reflexivity|]). destruct H.
Qed.
Lemma lexPath_start l c r : rest l = c :: r -> isPathOrSlash c = true ->
  exists t l', lexPath l = Ok (t, l') /\ tk t = tok_path_fragment.
Proof.
  intros Hr Hc. unfold lexPath, eof. rewrite Hr. prefix_case q Hq.
  { exfalso. rewrite Hr in Hq. cbn in Hq. injection Hq as -> _. discriminate. }
  unfold peekPrefix. destruct (starts_with (b "~/") (rest l)) eqn:Eh.
  { exfalso. apply starts_with_spec in Eh as [q Hq2]. rewrite Hr in Hq2. cbn in Hq2. injection Hq2 as -> _. discriminate. }
  unfold lpeek. rewrite Hr, Hc. eexists. eexists. split; reflexivity.
Qed.
Lemma lexPath_home l r : rest l = b "~/" ++ r -> exists t l', lexPath l = Ok (t, l') /\ tk t = tok_path_fragment.
Proof.
  intros Hr. unfold lexPath, eof. rewrite Hr. cbn [b app]. change (rest l = b "~/" ++ r) in Hr. prefix_case q Hq.
  { exfalso. rewrite Hr in Hq. discriminate. }
  unfold peekPrefix. replace (starts_with (b "~/") (rest l)) with true.
  2:{ symmetry. apply starts_with_spec. eauto. }
  change (LexModel.consume 2 l) with (LexModel.consume (List.length (b "~/")) l). rewrite (consume_spec (b "~/") r l Hr). cbn [bind].
  eexists. eexists. split; reflexivity.
Qed.
Lemma lexPath_twice l t1 l1 t2 l2 :
  lexPath l = Ok (t1, l1) -> tk t1 = tok_path_fragment -> lexPath l1 = Ok (t2, l2) -> tk t2 = tok_path_fragment ->
  exists r, rest l1 = b "~/" ++ r.
Proof.
  intros H1 K1 H2 K2.
  assert (E : match rest l1 with [] => True | c :: _ => isPathOrSlash c = false end).
  { unfold lexPath, eof in H1. destruct (rest l) as [|c r] eqn:Hr.
    { inversion H1; subst. discriminate. }
    revert H1. prefix_case q Hq; intros H1.
    { inversion H1; subst. discriminate. }
    unfold peekPrefix in H1. destruct (starts_with (b "~/") (rest l)) eqn:Eh.
    { apply starts_with_spec in Eh as [q Hq2]. change (LexModel.consume 2 l) with (LexModel.consume (List.length (b "~/")) l) in H1.
      rewrite (consume_spec (b "~/") q l Hq2) in H1. cbn [bind] in H1. inversion H1; subst.
      destruct (consumeWhile_spec isPathOrSlash (Lst (advs (b "~/") (cur l)) q (diags l))) as (w & _ & _ & X). exact X. }
    unfold lpeek in H1. rewrite Hr in H1. destruct (isPathOrSlash c) eqn:Ec; inversion H1; subst; [|discriminate].
    destruct (consumeWhile_spec isPathOrSlash l) as (w & _ & _ & X). exact X. }
  unfold lexPath, eof in H2. destruct (rest l1) as [|c r] eqn:Hr.
  { inversion H2; subst. discriminate. }
  revert H2. prefix_case q Hq; intros H2.
  { inversion H2; subst. discriminate. }
  unfold peekPrefix in H2. destruct (starts_with (b "~/") (rest l1)) eqn:Eh.
  { apply starts_with_spec in Eh. rewrite Hr in Eh. exact Eh. }
  unfold lpeek in H2. rewrite Hr, E in H2. inversion H2; subst. discriminate.
Qed.

(** what peek reads when nothing is buffered *)
Lemma peek_lex s t s' : pbuf s = [] -> peek 0 s = Ok (t, s') -> lex_mode (mode s) (plex s) = Ok (t, plex s').
Proof.
  intros E. unfold peek. rewrite E. cbn [List.length Nat.sub fill]. unfold mode.
  destruct (pmodes s) as [|m ms]; [discriminate|]. cbn [hd].
  destruct (lex_mode m (plex s)) as [[x l]|w|]; try discriminate. cbn. rewrite E. cbn. intros H. inversion H; subst. reflexivity.
Qed.
Lemma peekk_lex s k s' : pbuf s = [] -> peekk 0 s = Ok (k, s') ->
  exists t, tk t = k /\ lex_mode (mode s) (plex s) = Ok (t, plex s').
Proof.
  intros E. unfold peekk, pbind. destruct (peek 0 s) as [[t x]|w|] eqn:Ep; try discriminate. unfold ret. intros H. inversion H; subst.
  exists t. split; [reflexivity|]. now apply peek_lex.
Qed.
Lemma consume_lex s u s' : pbuf s <> [] -> consume s = Ok (u, s') -> plex s' = plex s.
Proof.
  unfold consume, pbind, popBuf. destruct (pbuf s); [congruence|]. unfold ret. intros _ H. inversion H; subst. reflexivity.
Qed.
Lemma interps_snoc_l fs v : interps (fs ++ [inl v]) = interps fs.
Proof. unfold interps. rewrite flat_map_app. apply app_nil_r. Qed.
Lemma interps_snoc_r fs n : interps (fs ++ [inr n]) = interps fs ++ [n].
Proof. unfold interps. now rewrite flat_map_app. Qed.
Lemma interps_merge fs : interps (mergeFragments fs) = interps fs.
Proof.
  unfold mergeFragments. destruct fs as [|f fs]; [reflexivity|]. destruct (existsb _ _) eqn:E; [reflexivity|].
  symmetry. cbn [interps flat_map app]. change (interps (f :: fs) = []). revert E. generalize (f :: fs). intros l.
  induction l as [|[x|n] l IH]; intros E; [reflexivity|exact (IH E)|discriminate].
Qed.
Lemma interp_occurs t : tokok PS_Path t -> tk t = tok_dollar_curly -> occurs (b "${") src.
Proof.
  intros (F & H & _) K. rewrite K in H. destruct H as [H|[H _]]; [|discriminate].
  assert (V : tview t = b "${") by (inversion H; reflexivity).
  destruct F as ((pre & post & E & _) & _ & Hle & Ev).
  exists (firstn (off (lcur (trange t))) src), (skipn (off (rcur (trange t))) src).
  replace (b "${") with (slice src (off (lcur (trange t))) (off (rcur (trange t)))) by congruence.
  rewrite <- (skipn_split src) by exact Hle. now rewrite firstn_skipn.
Qed.

(** the first fragment of a path is a fragment in path mode, too *)
Lemma path_first l t : good src l -> tokok PS_Expr t -> tk t = tok_path_fragment -> cur l = lcur (trange t) ->
  exists t1 l1, lexPath l = Ok (t1, l1) /\ tk t1 = tok_path_fragment.
Proof.
  intros G (F & H & _) K E.
  assert (Hr : exists q, rest l = tview t ++ q).
  { rewrite (good_rest _ _ G), E. destruct F as (_ & _ & Hle & ->).
    exists (skipn (off (rcur (trange t))) src). now apply skipn_split. }
  destruct Hr as [q Hr]. rewrite K in H. destruct H as [H|[_ H]].
  - remember (tview t) as v eqn:Ev. clear Ev. inversion H; subst.
    + match goal with X : In _ documented |- _ => unfold documented in X; simpl in X; repeat (destruct X as [X|X]; [discriminate|]); destruct X end.
    + destruct w as [|c w]; cbn [app] in Hr.
      * eapply lexPath_start; [exact Hr|reflexivity].
      * eapply lexPath_start; [exact Hr|]. apply path_class. eapply Forall_inv; eauto.
    + eapply lexPath_home; eauto.
  - unfold odd_token in H. destruct H as [[? _]|[? _]]; discriminate.
Qed.

Lemma fun_pathloop t fs s : let q := QPathLoop t fs in
  Inv s -> pre q s -> T src q s <= fuel -> wp (parseExprPathLoop rec t fs) (post q s) s.
Proof.
  intros q I (Hm & Tt & Ek & Eb & Hw & (Cin & a0 & Ha0 & G) & Hf) Ht. subst q. unfold T in Ht. cbn [rank] in Ht. facts s.
  tokf t. bnd. apply wp_eq. pk t1 bf1 s1. intros E1. apply peek_lex in E1; [|assumption].
  match goal with H : starts s (lcur (trange t1)) |- _ => pose proof (proj2 (proj2 H) ltac:(congruence)) as L1 end.
  assert (Hlt : off (lcur (trange t)) < off (rcur (trange t1)) /\ (fs = [] -> interps fs = []) /\
     ((fs = [] /\ tk t1 = tok_path_fragment) \/ (off (lcur (trange t)) < lastpos s /\ occurs (b "${") src))).
  { destruct Hw as [[-> Hb]|(Hw & _ & Ho)].
    - assert (K1 : tk t1 = tok_path_fragment).
      { destruct (path_first (plex s) t (i_good _ _ I) Tt Ek) as (t1' & l1' & E1' & K1').
        - rewrite <- Hb. unfold basec. now rewrite Eb.
        - rewrite Hm in E1. cbn [lex_mode] in E1. rewrite E1' in E1. inversion E1; subst. exact K1'. }
      tolt t1. split; [|split; [reflexivity|left; auto]]. rewrite <- Hb, <- L1. assumption.
    - split; [lia|]. split; [intros ->; reflexivity|right; auto]. }
  destruct Hlt as (Hlt & _ & Hk).
  bnd. apply wp_eq. cs t1 bf1 s2. intros E2. apply consume_lex in E2; [|congruence].
  assert (B2 : pbuf s2 = []).
  { match goal with H : ~ la (tk t1) -> _ /\ _ |- _ => destruct H as [Hbf _] end; [|congruence].
    match goal with H : tokok (mode s) t1 |- _ => destruct H as (_ & [H|[H _]] & _) end; [|congruence].
    rewrite Hm in *. intros [L|[L|[L|L]]]; rewrite L in *;
      match goal with H : spelled _ _ _ |- _ => inversion H end. }
  bnd. apply wp_eq. pk t2 bf2 s3. intros E3. apply peekk_lex in E3; [|assumption]. destruct E3 as (t2' & K2 & E3).
  assert (Crash : tk t2 = tok_path_fragment -> allowed src "should be path_end or ${").
  { intros Kf. right. left. split; [reflexivity|]. destruct Hk as [[_ Kp]|[_ Ho]]; [|right; exact Ho].
    left. replace (mode s) with PS_Path in E1 by congruence. replace (mode s2) with PS_Path in E3 by congruence. cbn [lex_mode] in E1, E3.
    rewrite E2 in E3. destruct (lexPath_twice _ _ _ _ _ E1 Kp E3 ltac:(congruence)) as (r & Er).
    destruct (i_good src s1 ltac:(assumption)) as (p & Ep & _). rewrite Er in Ep. exists p, r. exact Ep. }
  assert (Kinds : tk t2 = tok_dollar_curly \/ tk t2 = tok_path_fragment \/ tk t2 = tok_path_end).
  { match goal with H : tokok (mode s2) t2 |- _ => destruct H as (_ & [H|[H _]] & _) end; [|congruence].
    replace (mode s2) with PS_Path in * by congruence. match goal with H : spelled _ _ _ |- _ => inversion H; auto end. }
  destruct Kinds as [K|[K|K]]; rewrite K.
  - bnd. rc e s4; [exists t2, bf2; split; [assumption|left; auto]|nn|]. plain_facts e.
    assert (B4 : pbuf s4 = []) by (match goal with H : okres _ _ _ _ s4 |- _ => apply (r_buf _ _ _ _ _ H eq_refl) end).
    rc n s5.
    + split; [congruence|]. split; [assumption|]. split; [assumption|]. split; [assumption|].
      split; [right; split; [lia|split; [assumption|]]|split; [split; [assumption|]|]].
      * apply (interp_occurs t2); [|assumption]. replace PS_Path with (mode s2) by congruence. assumption.
      * exists a0. split; [lia|]. rewrite interps_snoc_r, interps_snoc_l.
        destruct Hk as [[-> _]|[Hw' _]].
        { cbn [interps flat_map app]. apply fine_grp; [eapply fine_mono; [eassumption|lia|lia]|lia|lia]. }
        cat_ (lastpos s) (pnid s). eapply grp_mono; [exact G|..]; lia.
      * rewrite interps_snoc_r, interps_snoc_l. apply Forall_app. split; [assumption|]. constructor; [assumption|constructor].
    + nn.
    + tail; auto. intros a Ha Hi. cbn [accum] in *. split; [lia|]. rewrite interps_snoc_r, interps_snoc_l.
      apply (idl_one src _ (pnid s)); auto; try lia. eapply fine_mono; [eassumption|lia|lia].
  - apply Crash. exact K.
  - bnd. fr s4. bnd. fr s5. apply wp_ret. fin; [|reflexivity].
    set (r := mkRange (lcur (trange t)) (rcur (trange t1))).
    assert (Hr : off (lcur r) < off (rcur r)) by (subst r; exact Hlt).
    assert (Gi : grp (off (lcur r)) (off (rcur r)) a (pnid s) (interps fs)).
    { eapply grp_mono; [apply (grp_reid src _ _ a0 _ a _ G Hi)|..]; subst r; cbn [lcur rcur]; lia. }
    mk [NParts (pnid s3) r (mergeFragments (fs ++ [inl (tview t1)]))] a (pnid s4).
    + apply fine_grp; [|cb; lia|cb; lia].
      apply (mk_ok src _ (interps fs) a (pnid s)); [cb; exact Gi| | |constructor|lia|lia|cb; lia|cb; lia].
      * unfold proper. cbn [children]. now rewrite present_map, interps_merge, interps_snoc_l.
      * split; [split; [assumption|split; [assumption|cb; lia]]|]. split; [intros X; contradiction X; reflexivity|].
        split; [|exact Logic.I]. cbn [typed]. now rewrite interps_merge, interps_snoc_l.
    + reflexivity.
    + reflexivity.
Qed.

Lemma fun_path s : Inv s -> pre QPath s -> T src QPath s <= fuel -> wp (parseExprPath src rec) (post QPath s) s.
Proof.
  intros I [Hm (t & bf & Eb & Hk)] Ht. unfold T in Ht. cbn [rank] in Ht. facts s. frontk t bf s Eb I.
  assert (Ek : tk t = tok_path_fragment) by (destruct Hk as [<-|[]]; reflexivity). tolt t.
  bnd. pkf t bf. bnd. ps. ws s1. rc n s2.
  - split; [assumption|]. split; [mode_t t|]. split; [assumption|]. split; [assumption|].
    split; [left; split; [reflexivity|congruence]|]. split; [|constructor].
    split; [assumption|]. exists (pnid s1). split; [lia|apply grp_nil].
  - nn.
  - sw s3. tail; [auto| |].
    + cbn [begins]. intros ->. replace (lcur (trange t)) with (basec s) by congruence. apply starts_self.
    + inil.
Qed.

Lemma fun_parts c fs s : let q := QParts c fs in
  Inv s -> pre q s -> T src q s <= fuel -> wp (parseStringParts rec c fs) (post q s) s.
Proof.
  intros q I (Hm & Hh & Hc & (Cin & a0 & Ha0 & G) & Hf) Ht. subst q. unfold T in Ht. cbn [rank] in Ht. facts s.
  bnd. pk t bf s1.
  assert (Hm1 : mode s1 <> PS_Path) by (destruct Hm; congruence).
  assert (Stop : wp (do! assertLast in
      let! r := toLast c in
      let! i := fresh in
      ok_ (NParts i r (mergeFragments fs))) (post (QParts c fs) s) s1).
  { bnd. al. bnd. tl. bnd. fr s2. apply wp_ret. lastin s1. fin; [|reflexivity].
    assert (Gi : grp (off c) (off (lastc s1)) a (pnid s) (interps fs)).
    { eapply grp_mono; [apply (grp_reid src _ _ a0 _ a _ G Hi)|..]; lia. }
    apply (mk_ok src _ (interps fs) a (pnid s)); [cb; exact Gi| | |constructor|lia|lia|cb; lia|cb; lia].
    - unfold proper. cbn [children]. now rewrite present_map, interps_merge.
    - split; [split; [assumption|split; [assumption|cb; lia]]|]. split; [intros X; contradiction X; reflexivity|].
      split; [|exact Logic.I]. cbn [typed]. now rewrite interps_merge. }
  assert (Rec : forall fs2, interps fs2 = interps fs -> forall s2, Inv s2 -> mvd s1 s2 -> base s1 < base s2 -> plast s2 <> None ->
     wp (rec (QParts c fs2)) (post (QParts c fs) s) s2).
  { intros fs2 E s2 I2 M2 Hb Hp. dd. facts s2. rc n s3.
    - split; [destruct Hm; [left|right]; congruence|]. split; [assumption|]. split; [lia|]. rewrite E. split; [|assumption].
      split; [assumption|]. exists a0. split; [lia|]. eapply grp_mono; [exact G|..]; lia.
    - nn.
    - tail; auto. intros a Ha Hi. cbn [accum] in *. rewrite E. split; [lia|]. eapply idl_mono; [exact Hi|..]; lia. }
  destruct (tk t) eqn:Ek; try exact Stop.
  - tolt t. bnd. cs t bf s2. apply Rec; [apply interps_snoc_l|assumption|mv|lia|has].
  - tolt t. bnd. cs t bf s2. apply Rec; [|assumption|mv|lia|has].
    destruct (unescape (tview t)); [reflexivity|apply interps_snoc_l].
  - bnd. rc e s2; [exists t, bf; split; [assumption|left; auto]|nn|]. plain_facts e. rc n s3.
    + split; [destruct Hm; [left|right]; congruence|]. split; [assumption|]. split; [lia|]. rewrite interps_snoc_r. split; [split; [assumption|]|].
      * exists a0. split; [lia|]. cat_ (lastpos s) (pnid s). eapply grp_mono; [exact G|..]; lia.
      * apply Forall_app. split; [assumption|]. constructor; [assumption|constructor].
    + nn.
    + tail; auto. intros a Ha Hi. cbn [accum] in *. split; [lia|]. rewrite interps_snoc_r.
      apply (idl_one src _ (pnid s)); auto; try lia. eapply fine_mono; [eassumption|lia|lia].
Qed.

Lemma fun_string ind s : let q := QString ind in
  Inv s -> pre q s -> T src q s <= fuel -> wp (parseString src rec ind) (post q s) s.
Proof.
  intros q I [Hm (t & bf & Eb & Hk)] Ht. subst q. unfold T in Ht. cbn [rank] in Ht. facts s. frontk t bf s Eb I.
  assert (Ek : tk t = qk ind) by (destruct Hk as [<-|[]]; reflexivity).
  assert (K : tk t <> tok_eof /\ tk t <> tok_path_end /\ ~ la (tk t)).
  { rewrite Ek. destruct ind; (split; [discriminate|]); (split; [discriminate|]); intros [X|[X|[X|X]]]; discriminate. }
  destruct K as (K1 & K2 & K3). tolt t. unfold parseString. fold (qk ind).
  bnd. pkf t bf. bnd. rewrite Ek, tkind_beq_refl. apply wp_passert. bnd. cs t bf s1.
  match goal with H : ~ la (tk t) -> _ |- _ => destruct (H K3) as [Ebf Lb] end.
  sy s2. bnd. al. ws s3. set (md := if ind then PS_IndString else PS_String) in *.
  assert (Hmd : md = PS_String \/ md = PS_IndString) by (subst md; destruct ind; auto).
  assert (Hnp : md <> PS_Path /\ md <> PS_Expr) by (destruct Hmd; split; congruence). destruct Hnp as [Hnp Hne].
  bnd. pk t1 bf1 s4.
  match goal with H : starts s3 (lcur (trange t1)) |- _ => pose proof (proj2 (proj2 H) ltac:(congruence)) as L1 end.
  assert (L2 : off (lcur (trange t1)) = off (rcur (trange t))) by congruence.
  bnd. rc p s5.
  - split; [destruct Hmd; [left|right]; congruence|]. split; [has|]. split; [lia|]. split; [|constructor].
    split; [assumption|]. exists (pnid s4). split; [lia|apply grp_nil].
  - nn.
  - match goal with H : okres _ _ _ p _ |- _ => destruct H as [F1 F2 F3 F4 F5 F6 _] end.
    specialize (F1 (pnid s4) ltac:(lia) (idl_nil _ _)). cbn [kinds begins] in F2, F3.
    pose proof (nok_range src p (proj1 F1)) as (R1 & R2 & R3). fold (nl p) (nr p) in R1, R2, R3.
    bnd. apply wp_expect; [assumption|congruence|destruct ind; discriminate| |].
    + intros s6 t2 bf2 ? ? ? ? ? ? ? ?. dd. facts s6. tokf t2. bnd. cs t2 bf2 s7. bnd. fr s8. apply wp_ret. sw s9. ys s10. fin; [|here].
      mk [p] (pnid s4) (pnid s5).
      * apply fine_grp; [exact F1|cb; rewrite F3; lia|cb; lia].
      * reflexivity.
      * exact F2.
    + intros s6 ? ? ?. dd. facts s6. bnd. nm s7. bnd. fr s8. apply wp_ret. sw s9. ys s10. fin.
      * mk [p] (pnid s4) (pnid s5).
        -- apply fine_grp; [exact F1|cb; rewrite F3; lia|cb; lia].
        -- reflexivity.
        -- cb. rewrite F3 in R3. lia.
        -- exact F2.
      * here.
      * cb. lia.
      * intros. lia.
Qed.
End Fun.
