(** Each parsing function meets its specification, given that the calls it makes do. *)
From Coq Require Import Permutation.
From Verif Require Import Base Diag LexModel LexSpec LexProofs AstModel PSupModel SemaModel ParseModel ParseSpec FixSpec
  ParseInv ParseTree ParseSema ParseStep.

Section Fun.
Variable src : bytes.
Notation sok := (sok src). Notation nok := (nok src). Notation local := (local src).
Notation Inv := (Inv src). Notation wp := (wp src). Notation dok := (dok src).
Notation tokok := (tokok src). Notation grp := (grp src). Notation fine := (fine src).
Notation starts := (starts src). Notation pre := (pre src). Notation post := (post src).
Notation len := (List.length src).

Variable fuel : nat.
Variable rec : nt -> P (option node).
Hypothesis R : RecOK src fuel rec.

Lemma fun_list s : Inv s -> pre QList s -> T src QList s <= fuel -> wp (parseExprList rec) (post QList s) s.
Proof.
  intros I [Hm _] Ht. unfold T in Ht. cbn [rank] in Ht. facts s. bnd. pk t bf s1.
  destruct (tkind_beq (tk t) tok_l_bracket) eqn:Ek; cbn [negb].
  2:{ apply wp_ret. split; [assumption|]. split; [mv|]. split; [exact Logic.I|]. intros; congruence. }
  apply tkind_beq_eq in Ek. tolt t. bnd. cs t bf s2. sy s3. bnd. al.
  rc n s4.
  - split; [congruence|]. split; [|constructor]. split; [mode_t t|]. split; [exact Ek|]. split; [has|].
    split; [lia|]. split; [assumption|]. exists (pnid s3). split; [lia|]. apply grp_nil.
  - nn.
  - ys s5. tail; [auto| |inil]. intros E. red in E. red. rewrite E. assumption.
Qed.

Lemma acc_one c s l n s' :
  acc_ok src c s l -> off c < lastpos s -> fine (pnid s) (pnid s') n -> lastpos s <= off (nl n) ->
  off (nr n) <= lastpos s' -> pnid s <= pnid s' -> off (nl n) <= off (nr n) -> acc_ok src c s' (l ++ [n]).
Proof.
  intros (C & a & Ha & G) H1 H2 H3 H4 H5 H6. split; [exact C|]. exists a. split; [lia|].
  apply (grp_app src _ _ _ _ (off c) (lastpos s) a (pnid s) (lastpos s) (lastpos s') (pnid s) (pnid s')); auto; try lia.
  apply fine_grp; auto.
Qed.
Lemma acc_peek c s l s' :
  acc_ok src c s l -> lastpos s <= lastpos s' -> pnid s <= pnid s' -> acc_ok src c s' l.
Proof.
  intros (C & a & Ha & G) E1 E2. split; [exact C|]. exists a. split; [lia|].
  eapply grp_mono; eauto; lia.
Qed.
Lemma idl_one a s l s' n :
  idl a s (lids l) -> fine s s' n -> a <= s -> s <= s' -> idl a s' (lids (l ++ [n])).
Proof.
  intros H [_ H2] Ha Hs. rewrite lids_app. apply (idl_app a s' a s s s'); auto; try lia.
  unfold lids. cbn [flat_map]. now rewrite app_nil_r.
Qed.

Lemma fun_listloop t l s : let q := QListLoop t l in
  Inv s -> pre q s -> T src q s <= fuel -> wp (parseExprListLoop src rec t l) (post q s) s.
Proof.
  intros q I [Hm ((Tk & Ek & Hh & Hlt & Ac) & Hx)] Ht. subst q. unfold T in Ht. cbn [rank] in Ht. facts s.
  tokf t. tolt t.
  assert (Fin : forall s1, Inv s1 -> mvd s s1 -> wp (let! er := expect src tok_r_bracket in
    do! (match er with Some _ => consume | None => noteMatch (trange t) tok_l_bracket end) in
    let! r := toLast (lcur (trange t)) in
    let! i := fresh in
    ok_ (NList i r l)) (post (QListLoop t l) s) s1).
  { intros s1 I1 M1. dd. facts s1.
    assert (Fin2 : forall s2, Inv s2 -> mvd s1 s2 -> wp (let! r := toLast (lcur (trange t)) in
       let! i := fresh in ok_ (NList i r l)) (post (QListLoop t l) s) s2).
    { intros s2 I2 M2. dd. facts s2. bnd. tl. bnd. fr s3. apply wp_ret. fin; [|reflexivity].
      destruct Ac as (Cin & a0 & Ha0 & G). lastin s2.
      apply (mk_ok src _ l a (pnid s)); try lia.
      - cb. eapply grp_mono; [apply (grp_reid src _ _ a0 _ a _ G Hi)|..]; lia.
      - pm. reflexivity.
      - apply local_mk; try exact Logic.I; cb; auto. lia.
      - constructor.
      - cb. lia.
      - cb. lia. }
    bnd. ex t2 bf2 s2.
    - bnd. cs t2 bf2 s3. apply Fin2; auto. mv.
    - bnd. nm s3. apply Fin2; auto. mv. }
  bnd. pk t1 bf s1. destruct (tkind_beq (tk t1) tok_r_bracket) eqn:E.
  { apply Fin; auto. mv. }
  bnd. rc n s2.
  - cbn [pre]. split; [congruence|exact Logic.I].
  - apply Fin; auto. mv.
  - plain_facts n. rc m s3.
    + split; [congruence|]. split; [|apply Forall_app; auto]. split; [exact Tk|]. split; [exact Ek|]. split; [has|].
      split; [lia|]. apply (acc_one _ s1); auto; try lia. apply (acc_peek _ s); auto; lia.
    + nn.
    + tail; auto. intros a Ha Hi. cbn [accum] in *. split; [lia|]. apply (idl_one _ (pnid s1)); auto; try lia.
      replace (pnid s1) with (pnid s) by congruence. exact Hi.
Qed.

Lemma fun_paren s : Inv s -> pre QParen s -> T src QParen s <= fuel -> wp (parseExprParen src rec) (post QParen s) s.
Proof.
  intros I [Hm (t & bf & Eb & Hk)] Ht. unfold T in Ht. cbn [rank] in Ht. facts s.
  destruct (front_ok src t bf s I Eb) as (Tk & Hl & Hbc & Hb).
  assert (Ek : tk t = tok_l_paren) by (destruct Hk as [<-|[]]; reflexivity). tokf t. tolt t.
  bnd. pkf t bf. bnd. fr s1. bnd. ps. bnd. cs t bf s2. sy s3. bnd. al. bnd. oc e s4; [split; [congruence|exact Logic.I]|].
  bnd. on s5. bnd. ex t2 bf2 s6.
  - tolt t2. bnd. cs t2 bf2 s7. bnd. fr s8. bnd.
    assert (Fin : forall s9, Inv s9 -> stl s8 s9 -> wp (let! i := fresh in
        ok_ (NParen i (mkRange (lcur (trange t)) (rcur (trange t2))) e (NMisc (pnid s) (trange t)) (Some (NMisc (pnid s7) (trange t2)))))
        (closing src tok_r_paren (psync s2) (post QParen s)) s9).
    { intros s9 I9 S9. dd. facts s9. bnd. fr s10. apply wp_ret. ys s11. fin; [|here].
      mk ([NMisc (pnid s) (trange t)] ++ optlist e ++ [NMisc (pnid s7) (trange t2)]) (pnid s) (pnid s8).
      - cat_ (lastpos s2) (pnid s3). cat_ (lastpos s4) (pnid s7).
      - apply Permutation_middle.
      - split; [ok_kind|]. split; reflexivity. }
    destruct (mayProducedBySimple e).
    + rmv. rmv. em s9.
      * apply dok_fix; [| |apply dok_tag, dok_0; [assumption|reflexivity]].
        -- apply fix_two; try (apply edit_rem; assumption). unfold apart. cbn [e_range]. lia.
        -- apply keeps_parens; [tokr|tokr|reflexivity|unfold before; cbn [e_range]; lia].
      * apply Fin; auto. constructor; congruence || lia.
    + apply wp_ret. apply Fin; auto. apply stl_refl.
  - bnd. nm s7. bnd.
    assert (Fin : forall s8, Inv s8 -> stl s7 s8 -> wp (let! r := toLast (lcur (trange t)) in
        let! i := fresh in
        ok_ (NParen i r e (NMisc (pnid s) (trange t)) None))
        (closing src tok_r_paren (psync s2) (post QParen s)) s8).
    { intros s9 I9 S9. dd. facts s9. bnd. tl. bnd. fr s10. apply wp_ret. ys s11. lastin s9. fin; [|here].
      mk ([NMisc (pnid s) (trange t)] ++ optlist e) (pnid s) (pnid s9).
      - cat_ (lastpos s2) (pnid s3).
      - apply Permutation_cons_append.
      - split; [ok_kind|]. split; [reflexivity|exact Logic.I]. }
    destruct (mayProducedBySimple e).
    + rmv. em s9.
      * apply dok_fix; [| |apply dok_tag, dok_0; [assumption|reflexivity]].
        -- apply fix_one, edit_rem; assumption.
        -- apply keeps_paren; [tokr|reflexivity].
      * apply Fin; auto. constructor; congruence || lia.
    + apply wp_ret. apply Fin; auto. apply stl_refl.
Qed.

Lemma fun_simple s : Inv s -> pre QSimple s -> T src QSimple s <= fuel -> wp (parseExprSimple rec) (post QSimple s) s.
Proof.
  intros I [Hm _] Ht. unfold T in Ht. cbn [rank] in Ht. facts s. bnd. pk t bf s1.
  assert (Fr : forall ks, In (tk t) ks -> front s1 ks) by (intros; exists t, bf; auto).
  destruct (tk t) eqn:Ek; try (apply wp_ret; none);
    try match goal with |- ParseInv.wp _ (rec ?q) _ _ =>
      rc n s2; [split; [congruence|first [exact Logic.I|apply Fr; cbn [qk In]; tauto]]|try nn; none|
        tail; [|froe|inil]; intros K; cbn [kinds] in *; try exact K; red in K; red; now rewrite K]
    end; tolt t; bnd; cs t bf s2; bnd.
  - (* id *) fr s3. bnd. fr s4. apply wp_ret. fin; [|assumption].
    mk [NIdent (pnid s2) (trange t) (tview t)] (pnid s2) (pnid s3).
    + pf.
    + reflexivity.
    + reflexivity.
  - (* int *)
    destruct (from_chars (tview t)) as [v|].
    + apply wp_ret. bnd. fr s3. apply wp_ret. fin; [|assumption]. apply leaf_ok; try reflexivity; [loc; exact Logic.I|cb; lia].
    + bnd. em s3; [apply dok_0; [assumption|reflexivity]|]. apply wp_ret. bnd. fr s4. apply wp_ret. fin; [|assumption].
      apply leaf_ok; try reflexivity; [loc; exact Logic.I|cb; lia].
  - (* float *) fr s3. apply wp_ret. fin; [|assumption].
    apply leaf_ok; try reflexivity; [loc; exact Logic.I|cb; lia].
  - (* spath *) fr s3. apply wp_ret. fin; [|assumption].
    apply leaf_ok; try reflexivity; [loc; exact Logic.I|cb; lia].
  - (* uri *) fr s3. bnd. fr s4. bnd. rewrite mkInsertion_ok by discriminate. apply wp_lift. bnd.
    rewrite mkInsertion_ok by discriminate. apply wp_lift. bnd. em s5.
    { apply dok_fix; [| |apply dok_0; [assumption|reflexivity]].
      - apply fix_two; try (apply edit_ins; [assumption|discriminate]). unfold apart. cbn. lia.
      - apply keeps_string; [apply ins_inserts|apply ins_inserts|reflexivity|reflexivity|].
        match goal with K : ParseInv.tokok _ _ t |- _ => exact (tok_address _ _ _ K ltac:(assumption)) end. }
    apply wp_ret. fin; [|assumption].
    mk [NParts (pnid s2) (trange t) (mergeFragments [inl (tview t)])] (pnid s2) (pnid s3).
    + apply fine_grp; [|cb; lia|cb; lia]. apply leaf_ok; try reflexivity; [|cb; lia].
      split; [assumption|]. split; [intros K; contradiction K; reflexivity|]. split; [constructor|exact Logic.I].
    + reflexivity.
    + reflexivity.
Qed.
End Fun.
