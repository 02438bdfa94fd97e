(** The parsing functions of ParseAttrs.cpp, and interpolations. *)
From Coq Require Import Permutation.
From Verif Require Import Base Diag LexModel LexSpec LexProofs AstModel PSupModel SemaModel ParseModel ParseSpec FixSpec
  ParseInv ParseTree ParseSema ParseStep ParseFun.

Section Fun.
Variable src : bytes.
Notation sok := (sok src). Notation nok := (nok src). Notation local := (local src).
Notation Inv := (Inv src). Notation wp := (wp src). Notation dok := (dok src).
Notation tokok := (tokok src). Notation grp := (grp src). Notation fine := (fine src).
Notation starts := (starts src). Notation pre := (pre src). Notation post := (post src).
Notation len := (List.length src).

Variable fuel : nat.
Variable rec : nt -> P (option node).
Hypothesis R : RecOK src fuel rec.

Lemma fun_interp s : Inv s -> pre QInterp s -> T src QInterp s <= fuel -> wp (parseInterpolation src rec) (post QInterp s) s.
Proof.
  intros I (t & bf & Eb & Hk) Ht. unfold T in Ht. cbn [rank] in Ht. facts s.
  frontk t bf s Eb I.
  assert (Ek : tk t = tok_dollar_curly) by (destruct Hk as [<-|[]]; reflexivity). tolt t.
  bnd. pkf t bf. bnd. ps. bnd. cs t bf s1. sy s2. bnd. al. ws s3. bnd. oc e s4; [split; [congruence|exact Logic.I]|].
  bnd. on s5. bnd.
  assert (Fin : forall s7, Inv s7 -> mvd s5 s7 -> plast s7 <> None -> wp (
      let! r := toLast (lcur (trange t)) in
      let! i := fresh in
      ok_ (NInterp i r e)) (fun a s8 => Inv s8 /\ pmodes s8 = PS_Expr :: pmodes s2 /\
        forall s3, Inv s3 -> pbuf s3 = [] -> pmodes s3 = pmodes s2 -> mode s3 = mode s2 -> psync s3 = psync s8 ->
          basec s3 = basec s8 -> base s3 = base s8 -> plast s3 = plast s8 -> lastc s3 = lastc s8 ->
          lastpos s3 = lastpos s8 -> nd s3 = nd s8 -> pnid s3 = pnid s8 ->
          closing src tok_r_curly (psync s1) (post QInterp s) a s3) s7).
  { intros s7 I7 M7 P7. dd. facts s7. bnd. tl. bnd. fr s8. apply wp_ret. sw s9. ys s10. lastin s7. fin; [|here].
    mk (optlist e) (pnid s3) (pnid s4).
    - pf.
    - reflexivity.
    - ok_kind. }
  ex t2 bf2 s6.
  - bnd. cs t2 bf2 s7. apply Fin; auto; [mv|has].
  - bnd. nm s7. apply Fin; auto; [mv|has].
Qed.

Lemma fun_attrname s : Inv s -> pre QAttrName s -> T src QAttrName s <= fuel -> wp (parseAttrName rec) (post QAttrName s) s.
Proof.
  intros I [Hm _] Ht. unfold T in Ht. cbn [rank] in Ht. facts s. bnd. pk t bf s1.
  assert (Fr : forall ks, In (tk t) ks -> front s1 ks) by (intros; exists t, bf; auto).
  assert (Id : tk t = tok_id \/ tk t = tok_kw_or -> forall s2, Inv s2 -> stl s1 s2 ->
      wp (do! consume in let! ii := fresh in let! i := fresh in
          ok_ (NAttrName i (trange t) (NIdent ii (trange t) (tview t)))) (post QAttrName s) s2).
  { intros Hk s2 I2 S2. assert (tk t <> tok_eof /\ tk t <> tok_path_end) as [K1 K2] by (destruct Hk; split; congruence).
    tolt t. dd. facts s2. bnd. cs t bf s3. bnd. fr s4. bnd. fr s5. apply wp_ret. fin; [|assumption].
    mk [NIdent (pnid s3) (trange t) (tview t)] (pnid s3) (pnid s4).
    - pf.
    - reflexivity.
    - left. reflexivity. }
  assert (Sub : forall q n s2, Inv s2 -> mvd s1 s2 -> okres src q s1 n s2 -> plain q -> q <> QFormals -> is_name n ->
      wp (let! i := fresh in ok_ (NAttrName i (nrange n) n)) (post QAttrName s) s2).
  { intros q n s2 I2 M2 O Hp Hq Hn.
    destruct (plain_res src q s1 n s2 Hp O) as (F & _ & ? & ? & ? & ? & ? & St & ? & ? & ?). dd. facts s2.
    bnd. fr s3. apply wp_ret. fin.
    - mk [n] (pnid s1) (pnid s2).
      + apply fine_grp; auto.
      + reflexivity.
      + exact Hn.
    - red. unfold nl at 1. cbn [nrange]. fold (nl n). 
      match goal with B : pbuf s1 = _ :: _ |- _ => rewrite (starts_front _ _ _ _ _ B (St Hq)); assumption end.
    - unfold nr in *. lia.
    - cln. unfold nr in *. congruence. }
  destruct (tk t) eqn:Ek; try (apply wp_ret; none).
  - bnd. em s2; [apply dok_0; [assumption|reflexivity]|]. apply Id; auto. constructor; congruence || lia.
  - apply Id; auto. apply stl_refl.
  - bnd. rc n s2; [split; [congruence|apply Fr; simpl; tauto]|nn|].
    apply (Sub (QString false)); auto; try exact Logic.I; try discriminate. 
    + mv.
    + right. left. plain_facts n. assumption.
  - bnd. rc n s2; [apply Fr; simpl; tauto|nn|].
    apply (Sub QInterp); auto; try exact Logic.I; try discriminate.
    + mv.
    + right. right. plain_facts n. assumption.
Qed.

Lemma acc_more c s l l' s' :
  acc_ok src c s l -> off c <= lastpos s -> grp (lastpos s) (lastpos s') (pnid s) (pnid s') l' ->
  lastpos s <= lastpos s' -> pnid s <= pnid s' -> acc_ok src c s' (l ++ l').
Proof.
  intros (C & a & Ha & G) H1 G' H2 H3. split; [exact C|]. exists a. split; [lia|].
  apply (grp_cat src _ _ _ _ (lastpos s) (pnid s)); auto.
Qed.
Lemma acc_perm c s l l' : Permutation l l' -> acc_ok src c s l -> acc_ok src c s l'.
Proof. intros H (C & a & Ha & G). split; [exact C|]. exists a. split; [exact Ha|]. eapply grp_perm; eauto. Qed.
Lemma idl_more a i i' lo hi l l' :
  idl a i (lids l) -> grp lo hi i i' l' -> a <= i -> i <= i' -> idl a i' (lids (l ++ l')).
Proof.
  intros H G Ha Hi. rewrite lids_app. apply (idl_app a i' a i i i'); auto; try lia. apply G.
Qed.
Lemma idl_lperm a i l l' : Permutation l l' -> idl a i (lids l) -> idl a i (lids l').
Proof. intros H. apply idl_perm. now apply lids_perm. Qed.

Lemma fun_attrpath s : Inv s -> pre QAttrPath s -> T src QAttrPath s <= fuel -> wp (parseAttrPath rec) (post QAttrPath s) s.
Proof.
  intros I [Hm _] Ht. unfold T in Ht. cbn [rank] in Ht. facts s. bnd.
  rc f s1; [split; [congruence|exact Logic.I]|apply wp_ret; none|]. plain_facts f. bnd. al. sy s2.
  rc n s3.
  - split; [congruence|]. split.
    + split; [assumption|]. exists (pnid s). split; [lia|]. cbn [app]. apply fine_grp; try lia.
      eapply fine_mono; eauto; lia.
    + split; [has|]. split; [lia|]. split; [discriminate|]. split; [|constructor]. constructor; [assumption|constructor].
  - nn.
  - ys s4. tail; [auto| |].
    + cbn [begins]. intros ->. match goal with H : _ -> starts s (nl f) |- _ => apply H; discriminate end.
    + intros a Ha _. split; [lia|]. unfold lids. cbn [accum app flat_map]. rewrite app_nil_r.
      eapply idl_mono; [apply F|..]; lia.
Qed.

Lemma names_perm (l1 l2 : list node) (x y : node) :
  Permutation ((l1 ++ l2) ++ [x; y]) ((l1 ++ [x]) ++ (l2 ++ [y])).
Proof.
  rewrite <- !app_assoc. apply Permutation_app_head.
  change [x; y] with ([x] ++ [y]). rewrite !app_assoc. apply Permutation_app_tail. apply Permutation_app_comm.
Qed.

Lemma fun_attrpathloop c ns ds p s : let q := QAttrPathLoop c ns ds p in
  Inv s -> pre q s -> T src q s <= fuel -> wp (parseAttrPathLoop rec c ns ds p) (post q s) s.
Proof.
  intros q I [Hm (Ac & Hh & Hlt & Hne & Hn & Hd)] Ht. subst q. unfold T in Ht. cbn [rank] in Ht. facts s.
  bnd. pk t bf s1. destruct (tkind_beq (tk t) tok_dot) eqn:Ek.
  - apply tkind_beq_eq in Ek. tolt t. bnd. cs t bf s2. bnd. oc n s3; [split; [congruence|exact Logic.I]|].
    bnd. fr s4. set (dot := NDot _ _ _ _).
    assert (Gd : fine (pnid s3) (pnid s4) dot) by (eapply dot_fine; [eassumption|congruence|congruence|lia]).
    destruct n as [n|].
    + match goal with H : ores _ _ _ _ _ |- _ => destruct H as [F1 F2 F3 _ _ _ _] end. simpl in F1, F2, F3.
      assert (G : grp (lastpos s1) (lastpos s4) (pnid s1) (pnid s4) [n; dot]).
      { change [n; dot] with ([n] ++ [dot]).
        apply (grp_app src _ _ _ _ (base s2) (lastpos s3) (pnid s2) (pnid s3) (base s1) (lastpos s2) (pnid s3) (pnid s4)); try lia;
          apply fine_grp; auto; unfold dot; cb; lia. }
      rc m s5.
      * split; [congruence|]. split.
        { apply (acc_perm _ _ _ _ (names_perm ns ds n dot)). apply (acc_more _ s1); auto; try lia. apply (acc_peek _ _ s); auto; lia. }
        split; [has|]. split; [lia|]. split; [destruct ns; discriminate|].
        split; [apply Forall_app; split; [assumption|constructor; [assumption|constructor]]|].
        apply Forall_app; split; [assumption|constructor; [reflexivity|constructor]].
      * nn.
      * tail; [auto..|]. intros a Ha Hi. split; [lia|]. cbn [accum] in *.
        apply (idl_lperm _ _ _ _ (names_perm ns ds n dot)).
        eapply (idl_more _ (pnid s1)); [|exact G|lia|lia]. replace (pnid s1) with (pnid s) by congruence. exact Hi.
    + bnd. apply wp_fix1_rem; [assumption|]. bnd. apply wp_fix1_ins; [discriminate|]. bnd. em s5.
      { repeat apply dok_fix; try (apply dok_0; [assumption|reflexivity]); 
          [apply fix_one, edit_ins; [assumption|discriminate]|apply (keeps_dummy _ _ _ (b """dummy""") After); [listed|apply ins_inserts|reflexivity]
          |apply fix_one; now apply edit_rem|apply keeps_dot; [tokr|reflexivity]]. }
      assert (G : grp (lastpos s1) (lastpos s5) (pnid s1) (pnid s5) [dot]).
      { apply fine_grp; [eapply fine_mono; eauto; lia|..]; unfold dot; cb; lia. }
      rc m s6.
      * split; [congruence|]. split.
        { rewrite app_assoc. apply (acc_more _ s1); auto; try lia. apply (acc_peek _ _ s); auto; lia. }
        split; [has|]. split; [lia|]. split; [assumption|]. split; [assumption|].
        apply Forall_app; split; [assumption|constructor; [reflexivity|constructor]].
      * nn.
      * tail; [auto..|]. intros a Ha Hi. split; [lia|]. cbn [accum] in *. rewrite app_assoc.
        eapply (idl_more _ (pnid s1)); [|exact G|lia|lia]. replace (pnid s1) with (pnid s) by congruence. exact Hi.
  - bnd. tl. bnd. fr s2. apply wp_ret. destruct Ac as (Cin & a0 & Ha0 & G). lastin s1. fin; [|reflexivity].
    mk (ns ++ ds) a (pnid s).
    + eapply grp_mono; [apply (grp_reid src _ _ a0 _ a _ G Hi)|..]; lia.
    + reflexivity.
    + auto.
Qed.

Lemma fun_binding s : Inv s -> pre QBinding s -> T src QBinding s <= fuel -> wp (parseBinding src rec) (post QBinding s) s.
Proof.
  intros I [Hm _] Ht. unfold T in Ht. cbn [rank] in Ht. facts s. bnd.
  rc p s1; [split; [congruence|exact Logic.I]|apply wp_ret; none|]. plain_facts p.
  assert (Hst : starts s (nl p)) by (match goal with H : _ -> starts s (nl p) |- _ => apply H; discriminate end).
  bnd. al. sy s2. sy s3. bnd. ex t bf s4.
  - tolt t. bnd. cs t bf s5. bnd. fr s6. bnd. oc e s7; [split; [congruence|exact Logic.I]|]. bnd. on s8. bnd. pk t2 bf2 s9. bnd.
    assert (Fin : forall s10, Inv s10 -> mvd s9 s10 -> wp (let! r := toLast (nl p) in
            let! i := fresh in
            ok_ (NBinding i r p e (Some (NMisc (pnid s5) (trange t)))))
         (closing src tok_semi_colon (psync s2) (closing src tok_eq (psync s1) (post QBinding s))) s10).
    { intros s10 I10 M10. dd. facts s10. bnd. tl. bnd. fr s11. apply wp_ret. ys s12. ys s13. lastin s10. fin; [|exact Hst].
      mk ([p] ++ [NMisc (pnid s5) (trange t)] ++ optlist e) (pnid s) (pnid s7).
      - cat_ (lastpos s1) (pnid s1). cat_ (lastpos s5) (pnid s6).
      - reflexivity.
      - match goal with H : ores _ QExpr _ e _ |- _ => pose proof (o_in _ _ _ _ _ H) as Oe end.
        destruct e as [e|]; [|exact Logic.I]. cbn [opt plain_node] in Oe |- *. lia.
      - split; [assumption|]. split; [ok_kind|reflexivity]. }
    destruct (tkind_beq (tk t2) tok_semi_colon) eqn:Ek2.
    + apply tkind_beq_eq in Ek2. cs t2 bf2 s10. apply Fin; auto. mv.
    + bnd. apply wp_lastR; [has|]. bnd. apply wp_fix1_ins; [discriminate|]. lastin s9. em s10.
      { apply dok_fix; [apply fix_one, edit_ins; [assumption|discriminate]|apply (keeps_insert_ src); reflexivity|]. apply dok_1; [now apply range_point|reflexivity]. }
      apply Fin; auto. mv.
  - bnd. tl. bnd. fr s5. apply wp_ret. ys s6. ys s7. lastin s4. fin; [|exact Hst].
    mk [p] (pnid s) (pnid s1).
    + pf.
    + reflexivity.
    + split; [assumption|]. split; exact Logic.I.
Qed.
End Fun.
