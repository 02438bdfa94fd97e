(** inherit, sets of bindings and attribute sets. *)
From Coq Require Import Permutation.
From Verif Require Import Base Diag LexModel LexSpec LexProofs AstModel PSupModel SemaModel ParseModel ParseSpec FixSpec
  ParseInv ParseTree ParseSema ParseStep ParseFun ParseFun2.

Section Fun.
Variable src : bytes.
Notation sok := (sok src). Notation nok := (nok src). Notation local := (local src).
Notation Inv := (Inv src). Notation wp := (wp src). Notation dok := (dok src).
Notation tokok := (tokok src). Notation grp := (grp src). Notation fine := (fine src).
Notation starts := (starts src). Notation pre := (pre src). Notation post := (post src).
Notation len := (List.length src).

Variable fuel : nat.
Variable rec : nt -> P (option node).
Hypothesis R : RecOK src fuel rec.

Lemma doc_inherit v : In (tok_kw_inherit, v) documented -> v = b "inherit".
Proof.
  intros D. unfold documented in D. simpl in D. repeat (destruct D as [D|D]; [first [discriminate D|injection D as <-; reflexivity]|]). destruct D.
Qed.
Lemma inherit_occurs m t : tokok m t -> tk t = tok_kw_inherit -> occurs (b "inherit") src.
Proof.
  intros ((Hc1 & Hc2 & Hle & Hv) & H & _) E. rewrite E in H.
  assert (tview t = b "inherit").
  { destruct H as [H|[_ H]]; [|destruct H as [[? _]|[? _]]; discriminate].
    remember tok_kw_inherit as k eqn:K in H. destruct H; try discriminate. subst k. now apply doc_inherit. }
  rewrite H0 in Hv. unfold slice in Hv.
  exists (firstn (off (lcur (trange t))) src), (skipn (off (rcur (trange t)) - off (lcur (trange t))) (skipn (off (lcur (trange t))) src)).
  rewrite Hv, firstn_skipn, firstn_skipn. reflexivity.
Qed.

Lemma fun_inheritloop t e l s : let q := QInheritLoop t e l in
  Inv s -> pre q s -> T src q s <= fuel -> wp (parseInheritLoop src rec t e l) (post q s) s.
Proof.
  intros q I [Hm ((Tk & Ek & Hh & Hlt & Ac) & He & Hx)] Ht. subst q. unfold T in Ht. cbn [rank] in Ht. facts s.
  tokf t. tolt t. bnd. rc n s1.
  - split; [congruence|exact Logic.I].
  - assert (Fin : forall s2, Inv s2 -> mvd s1 s2 -> wp (let! r := toLast (lcur (trange t)) in
      let! i := fresh in
      ok_ (NInherit i r l e)) (post (QInheritLoop t e l) s) s2).
    { intros s2 I2 M2. dd. facts s2. bnd. tl. bnd. fr s3. apply wp_ret. fin; [|reflexivity].
      destruct Ac as (Cin & a0 & Ha0 & G). lastin s2.
      apply (mk_ok src _ (optlist e ++ l) a (pnid s)); try lia.
      - cb. eapply grp_mono; [apply (grp_reid src _ _ a0 _ a _ G Hi)|..]; lia.
      - pm. apply Permutation_app_comm.
      - split; [split; [assumption|split; [assumption|cb; lia]]|]. split; [intros _; cb; lia|].
        split; [split; auto|]. eapply inherit_occurs; eauto.
      - constructor.
      - cb. lia.
      - cb. lia. }
    assert (Fin2 : forall er s2, Inv s2 -> mvd s1 s2 ->
       match er with Some t2 => range_in src (trange t2) /\ off (lcur (trange t2)) < off (rcur (trange t2)) /\
          off (rcur (trange t)) <= off (lcur (trange t2)) /\ tokok (mode s1) t2 /\ tk t2 = tok_semi_colon | None => True end ->
       wp (do! (match l with
           | [] =>
               let! e1 := lift (mkRemoval (trange t)) in
               let! es := (match er with
                           | Some T => let! e2 := lift (mkRemoval (trange T)) in ret [e1; e2]
                           | None => ret [e1]
                           end) in
               emit (d_fix (Fix_ (b "remove `inherit` keyword") es) (d_tag Faded (diag0 DK_EmptyInherit (trange t))))
           | _ => ret tt
           end) in
      let! r := toLast (lcur (trange t)) in
      let! i := fresh in
      ok_ (NInherit i r l e)) (post (QInheritLoop t e l) s) s2).
    { intros er s2 I2 M2 Her. dd. facts s2. bnd. destruct l as [|x l].
      2:{ apply wp_ret. apply Fin; auto. mv. }
      rmv. bnd. destruct er as [t2|].
      - destruct Her as (E1 & E2 & E3 & E4 & E5). rmv. apply wp_ret. em s3.
        + apply dok_fix; [| |apply dok_tag, dok_0; [assumption|reflexivity]].
          * apply fix_two; try (apply edit_rem; assumption). unfold apart. cbn [e_range]. lia.
          * apply keeps_inherit; [tokr|reflexivity|right; eexists; split; [reflexivity|split; [tokr|unfold before; cbn [e_range]; lia]]].
        + apply Fin; auto. mv.
      - apply wp_ret. em s3.
        + apply dok_fix; [| |apply dok_tag, dok_0; [assumption|reflexivity]].
          * apply fix_one, edit_rem; assumption.
          * apply keeps_inherit; [tokr|reflexivity|now left].
        + apply Fin; auto. mv. }
    bnd. ex t2 bf2 s2.
    + tolt t2. bnd. cs t2 bf2 s3. apply (Fin2 (Some t2)); auto; [mv|]. split; [assumption|]. split; [assumption|].
      split; [lia|]. split; [|assumption]. first [assumption|congruence].
    + bnd. nm s3. apply (Fin2 None); auto. mv.
  - plain_facts n. rc m s2.
    + split; [congruence|]. split; [|split; [assumption|apply Forall_app; auto]].
      split; [exact Tk|]. split; [exact Ek|]. split; [has|].
      split; [lia|]. rewrite app_assoc. apply (acc_one _ _ s); auto; lia.
    + nn.
    + tail; auto. intros a Ha Hi. cbn [accum] in *. split; [lia|]. rewrite app_assoc. apply (idl_one src _ (pnid s)); auto; lia.
Qed.

Lemma fun_inherit s : Inv s -> pre QInherit s -> T src QInherit s <= fuel -> wp (parseInherit src rec) (post QInherit s) s.
Proof.
  intros I [Hm _] Ht. unfold T in Ht. cbn [rank] in Ht. facts s. bnd. pk t bf s1.
  destruct (tkind_beq (tk t) tok_kw_inherit) eqn:Ek; cbn [negb].
  2:{ apply wp_ret. none. }
  apply tkind_beq_eq in Ek. tolt t. bnd. cs t bf s2. sy s3. sy s4. sy s5. sy s6. bnd. al. bnd. pk t2 bf2 s7. bnd.
  assert (Fin : forall e s8, Inv s8 -> mvd s7 s8 -> grp (lastpos s2) (lastpos s8) (pnid s2) (pnid s8) (optlist e) ->
     opt is_expr e -> wp (rec (QInheritLoop t e []))
       (closing src tok_dollar_curly (psync s5) (closing src tok_dquote (psync s4) (closing src tok_id (psync s3)
         (closing src tok_semi_colon (psync s2) (post QInherit s))))) s8).
  { intros e s8 I8 M8 G He. dd. facts s8. rc n s9.
    - split; [congruence|]. split; [|split; [exact He|constructor]]. split; [mode_t t|]. split; [exact Ek|]. split; [has|].
      split; [lia|]. split; [assumption|]. exists (pnid s2). split; [lia|]. rewrite app_nil_r.
      eapply grp_mono; [exact G|..]; lia.
    - nn.
    - ys s10. ys s11. ys s12. ys s13. tail; [auto| |].
      + cbn [begins]. intros ->. assumption.
      + intros a Ha _. split; [lia|]. cbn [accum]. rewrite app_nil_r. eapply idl_mono; [apply G|..]; lia. }
  destruct (tkind_beq (tk t2) tok_l_paren) eqn:Ek2.
  - apply tkind_beq_eq in Ek2. tolt t2. bnd. cs t2 bf2 s8. bnd. oc e s9; [split; [congruence|exact Logic.I]|]. bnd. on s10. bnd.
    ex t3 bf3 s11.
    + bnd. cs t3 bf3 s12. apply wp_ret. apply Fin; auto; [mv|pf|ok_kind].
    + bnd. nm s12. apply wp_ret. apply Fin; auto; [mv|pf|ok_kind].
  - apply wp_ret. apply Fin; auto; [mv|apply grp_nil|exact Logic.I].
Qed.

Lemma binds_one c s l n s' :
  acc_ok src c s l -> (l <> [] -> plast s <> None /\ off c < lastpos s) -> off c <= base s -> lastpos s <= base s ->
  fine (pnid s) (pnid s') n -> base s <= off (nl n) -> off (nr n) <= lastpos s' -> pnid s <= pnid s' ->
  off (nl n) <= off (nr n) -> acc_ok src c s' (l ++ [n]).
Proof.
  intros Ac Hl H1 H2 H3 H4 H5 H6 H7. destruct l as [|x l].
  - destruct Ac as (C & _). split; [exact C|]. exists (pnid s). split; [lia|]. cbn [app]. apply fine_grp; auto; lia.
  - destruct Hl as [_ Hl]; [discriminate|]. apply (acc_one _ _ s); auto; lia.
Qed.

Lemma fun_bindsloop c l s : let q := QBindsLoop c l in
  Inv s -> pre q s -> T src q s <= fuel -> wp (parseBindsLoop src rec c l) (post q s) s.
Proof.
  intros q I [Hm (Ac & Hc & Hl & Hx)] Ht. subst q. unfold T in Ht. cbn [rank] in Ht. facts s.
  assert (Next : forall s0 n s1, Inv s0 -> Inv s1 -> mvd s s0 -> mvd s0 s1 -> fine (pnid s0) (pnid s1) n -> is_bind n ->
      base s0 <= off (nl n) -> off (nl n) < off (nr n) -> off (nr n) <= lastpos s1 -> plast s1 <> None ->
      wp (rec (QBindsLoop c (l ++ [n]))) (post (QBindsLoop c l) s) s1).
  { intros s0 n s1 I0 I1 M0 M1 F Hb B1 B2 B3 Hh. dd. facts s1. facts s0. rc m s2.
    - split; [congruence|]. split.
      { apply (binds_one _ s0); auto; try lia.
        - apply (acc_peek _ _ s); auto; lia.
        - intros Hne. destruct (Hl Hne). split; [has|lia]. }
      split; [lia|]. split; [intros _; split; [has|lia]|]. apply Forall_app. auto.
    - exfalso. match goal with H : nonable _ _ |- _ => cbn [nonable] in H; destruct l; discriminate H end.
    - tail; auto. intros a Ha Hi. cbn [accum] in *. split; [lia|]. apply (idl_one src _ (pnid s0)); auto; try lia.
      eapply idl_mono; eauto; lia. }
  bnd. rc n s1; [split; [congruence|exact Logic.I]| |].
  2:{ plain_facts n. apply (Next s n s1); auto; try (mv || has). left. assumption. }
  bnd. rc n s2; [split; [congruence|exact Logic.I]| |].
  2:{ plain_facts n. apply (Next s1 n s2); auto; try (mv || has). right. assumption. }
  bnd. apply wp_removeUnexpected; [assumption|congruence| |].
  - intros s3 t bf ? ? ? ? ? ?. dd. facts s3. rc n s4.
    + split; [congruence|]. split; [apply (acc_peek _ _ s); auto; lia|]. split; [lia|].
      split; [|assumption]. intros Hne. destruct (Hl Hne). split; [has|lia].
    + none.
    + tail; auto. intros a Ha Hi. cbn [accum] in *. split; [lia|]. eapply idl_mono; eauto; lia.
  - intros s3 t bf ? ? ? ?. dd. facts s3. destruct l as [|x l].
    { apply wp_ret. none. }
    destruct Hl as [Hh Hl]; [discriminate|]. bnd. al. bnd. tl. bnd. fr s4. apply wp_ret. lastin s3.
    destruct Ac as (Cin & a0 & Ha0 & G). fin; [|reflexivity].
    mk (x :: l) a (pnid s).
    + eapply grp_mono; [apply (grp_reid src _ _ a0 _ a _ G Hi)|..]; lia.
    + reflexivity.
    + split; [discriminate|assumption].
Qed.

Lemma fun_binds s : Inv s -> pre QBinds s -> T src QBinds s <= fuel -> wp (parseBinds rec) (post QBinds s) s.
Proof.
  intros I [Hm _] Ht. unfold T in Ht. cbn [rank] in Ht. facts s. bnd. pk t bf s1. sy s2. sy s3. sy s4. sy s5.
  rc n s6.
  - split; [congruence|]. split; [|split; [lia|split; [congruence|constructor]]].
    split; [assumption|]. exists (pnid s5). split; [lia|]. apply grp_nil.
  - ys s7. ys s8. ys s9. ys s10. none.
  - ys s7. ys s8. ys s9. ys s10. tail; [auto| |inil]. cbn [begins]. intros ->. assumption.
Qed.

Lemma fun_attrs s : Inv s -> pre QAttrs s -> T src QAttrs s <= fuel -> wp (parseExprAttrs src rec) (post QAttrs s) s.
Proof.
  intros I [Hm (t & bf & Eb & Hk)] Ht. unfold T in Ht. cbn [rank] in Ht. facts s. frontk t bf s Eb I.
  assert (Hk2 : tk t <> tok_eof /\ tk t <> tok_path_end).
  { destruct Hk as [<-|[<-|[]]]; split; discriminate. }
  destruct Hk2 as [K1 K2]. tolt t. sy s1. bnd. pkf t bf. bnd.
  assert (Fin : forall rc m s2, Inv s2 -> mvd s1 s2 -> plast s2 <> None -> off (rcur (trange t)) <= lastpos s2 ->
      range_in src (trange m) -> opt (fun n => sok n /\ is_kind NK_Misc n) rc -> opt (fun n => nrange n = trange t) rc ->
      wp (do! assertLast in
    let! binds := rec QBinds in
    let! er2 := expect src tok_r_curly in
    do! (match er2 with Some _ => consume | None => noteMatch (trange m) (tk m) end) in
    let! r := toLast (lcur (trange t)) in
    let! a := onExprAttrs r binds rc in
    ok_ a) (closing src tok_r_curly (psync s) (post QAttrs s)) s2).
  { intros rc m s2 I2 M2 P2 L2 Rm Src Rrc. dd. facts s2. bnd. al. bnd. oc bs s3; [split; [congruence|exact Logic.I]|]. bnd.
    assert (Fin2 : forall s5, Inv s5 -> mvd s3 s5 -> wp (let! r := toLast (lcur (trange t)) in
       let! a := onExprAttrs r bs rc in ok_ a) (closing src tok_r_curly (psync s) (post QAttrs s)) s5).
    { intros s5 I5 M5. dd. facts s5. bnd. tl. bnd. apply wp_onExprAttrs; [assumption|ok_sok|exact Src|].
      intros i st dy s6 ? ? ? Hty Hex. dd. facts s6. apply wp_ret. ys s7. lastin s5. fin; [|here].
      apply (mk_ok src _ (optlist bs) (pnid s2) (pnid s3)); [cb; pf|reflexivity| |exact Hex|lia|lia|cb; lia|cb; lia].
      apply local_mk; cb; auto; try lia. destruct rc as [m0|]; [|exact Logic.I]. simpl in Rrc. left. rewrite Rrc.
      unfold inside. cbn [lcur rcur]. lia. }
    ex t2 bf2 s4.
    - bnd. cs t2 bf2 s5. apply Fin2; auto. mv.
    - bnd. nm s5. apply Fin2; auto. mv. }
  destruct (tkind_beq (tk t) tok_kw_rec) eqn:Ek.
  - apply tkind_beq_eq in Ek. bnd. cs t bf s2. bnd. fr s3. apply wp_ret. bnd. 
    assert (Sm : sok (NMisc (pnid s2) (trange t))).
    { eapply fine_sok. eapply (misc_fine src (pnid s2) t _ (pnid s2) (S (pnid s2))); eauto. }
    ex t2 bf2 s4.
    + bnd. bnd. cs t2 bf2 s5. apply wp_ret. apply (Fin (Some _) t2); auto; try (mv || has || lia). split; [exact Sm|reflexivity]. reflexivity.
    + bnd. apply wp_ret. apply (Fin (Some _) t); auto; try (mv || has || lia). split; [exact Sm|reflexivity]. reflexivity.
  - assert (Ek2 : tk t = tok_l_curly).
    { destruct Hk as [E|[E|[]]]; [rewrite <- E in Ek; discriminate|congruence]. }
    apply wp_ret. bnd. apply (wp_expect_front _ t bf); [assumption|congruence|assumption|]. intros s2 ? ?. dd. facts s2.
    bnd. bnd. cs t bf s3. apply wp_ret. apply (Fin None t); auto; try (mv || has || lia); exact Logic.I.
Qed.
End Fun.
