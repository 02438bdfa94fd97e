(** Lambdas. *)
From Coq Require Import Permutation.
From Verif Require Import Base Diag LexModel LexSpec LexProofs AstModel PSupModel SemaModel ParseModel ParseSpec FixSpec
  ParseInv ParseTree ParseSema ParseStep ParseFun ParseFun2 ParseFun4.

Section Fun.
Variable src : bytes.
Notation sok := (sok src). Notation nok := (nok src). Notation local := (local src).
Notation Inv := (Inv src). Notation wp := (wp src). Notation dok := (dok src).
Notation tokok := (tokok src). Notation grp := (grp src). Notation fine := (fine src).
Notation starts := (starts src). Notation pre := (pre src). Notation post := (post src).
Notation len := (List.length src).

Variable fuel : nat.
Variable rec : nt -> P (option node).
Hypothesis R : RecOK src fuel rec.

Lemma fun_formal s : Inv s -> pre QFormal s -> T src QFormal s <= fuel -> wp (parseFormal rec) (post QFormal s) s.
Proof.
  intros I [Hm _] Ht. unfold T in Ht. cbn [rank] in Ht. facts s. bnd. pk t0 bf0 s1. bnd. pkf t0 bf0. bnd.
  match goal with H : starts s (lcur (trange t0)) |- _ => pose proof H as St end.
  assert (Body : forall comma s2, Inv s2 -> mvd s1 s2 ->
    match comma with
    | Some m => sok m /\ is_kind NK_Misc m /\ nl m = lcur (trange t0) /\ off (nl m) < off (nr m) /\ off (nr m) <= lastpos s2 /\ plast s2 <> None
    | None => lastc s2 = lastc s
    end -> wp (let! t := peek 0 in
  match tk t with
  | tok_id =>
      do! consume in
      do! assertLast in
      let! ii := fresh in
      let ident := NIdent ii (trange t) (tview t) in
      let! k := peekk 0 in
      if negb (tkind_beq k tok_question) then
        let! r := toLast (lcur (trange t0)) in
        let! i := fresh in
        ok_ (NFormal i r comma (Some ident) None None)
      else
        do! consume in
        let! d := rec QExpr in
        do! orNull d "default value" in
        let! r := toLast (lcur (trange t0)) in
        let! i := fresh in
        ok_ (NFormal i r comma (Some ident) d None)
  | tok_ellipsis =>
      do! consume in
      do! assertLast in
      let! ell := mkMisc (trange t) in
      let! r := toLast (lcur (trange t0)) in
      let! i := fresh in
      ok_ (NFormal i r comma None None (Some ell))
  | _ =>
      match comma with
      | Some _ =>
          do! assertLast in
          let! r := toLast (lcur (trange t0)) in
          let! i := fresh in
          ok_ (NFormal i r comma None None None)
      | None => ret None
      end
  end) (post QFormal s) s2).
  { intros comma s2 I2 M2 Hc. dd. facts s2. bnd. pk t bf s3.
    assert (Cm : forall i r id d ell, lcur r = lcur (trange t0) -> lastpos s2 <= off (rcur r) ->
        opt (fun m => is_kind NK_Misc m /\ inside (nrange m) r) comma /\
        Forall sok (extras (NFormal i r comma id d ell))).
    { intros i r id d ell E1 E2. destruct comma as [m|]; [|split; [exact Logic.I|constructor]].
      destruct Hc as (C1 & C2 & C3 & C4 & C5 & C6). cbn [opt extras optlist]. split; [split; [exact C2|]|constructor; [exact C1|constructor]].
      unfold inside. cb. rewrite E1, C3. lia. }
    assert (Stop : wp (match comma with
      | Some _ =>
          do! assertLast in
          let! r := toLast (lcur (trange t0)) in
          let! i := fresh in
          ok_ (NFormal i r comma None None None)
      | None => ret None
      end) (post QFormal s) s3).
    { destruct comma as [m|]; [|apply wp_ret; none].
      pose proof Hc as (C1 & C2 & C3 & C4 & C5 & C6). bnd. al. bnd. tl. bnd. fr s4. apply wp_ret. lastin s3. fin; [|exact St].
      destruct (Cm (pnid s3) (mkRange (lcur (trange t0)) (lastc s3)) None None None eq_refl) as [X1 X2]; [cb; lia|].
      apply (mk_ok src _ [] (pnid s3) (pnid s3)); [apply grp_nil|reflexivity| |exact X2|lia|lia|cb; lia|cb; lia].
      apply local_mk; try exact Logic.I; cb; auto; [rewrite C3 in *; lia|].
      split; [exact X1|]. repeat split; auto. }
    destruct (tk t) eqn:Ek; try exact Stop.
    - tolt t. bnd. cs t bf s4. bnd. al. bnd. fr s5. bnd. pk t2 bf2 s6.
      destruct (tkind_beq (tk t2) tok_question) eqn:Ek2; cbn [negb].
      + apply tkind_beq_eq in Ek2. tolt t2. bnd. cs t2 bf2 s7. bnd. oc d s8; [split; [congruence|exact Logic.I]|]. bnd. on s9. bnd. tl. bnd. fr s10.
        apply wp_ret. lastin s9. fin; [|exact St].
        destruct (Cm (pnid s9) (mkRange (lcur (trange t0)) (lastc s9)) (Some (NIdent (pnid s4) (trange t) (tview t))) d None eq_refl) as [X1 X2]; [cb; lia|].
        apply (mk_ok src _ ([NIdent (pnid s4) (trange t) (tview t)] ++ optlist d) (pnid s4) (pnid s8)); [cb| | |exact X2|lia|lia|cb; lia|cb; lia].
        * cat_ (lastpos s4) (pnid s5).
        * pm. reflexivity.
        * apply local_mk; try exact Logic.I; cb; auto; [lia|].
          split; [exact X1|]. split; [reflexivity|]. split; [ok_kind|]. split; [exact Logic.I|]. intros X; congruence.
      + bnd. tl. bnd. fr s7. apply wp_ret. lastin s6. fin; [|exact St].
        destruct (Cm (pnid s6) (mkRange (lcur (trange t0)) (lastc s6)) (Some (NIdent (pnid s4) (trange t) (tview t))) None None eq_refl) as [X1 X2]; [cb; lia|].
        apply (mk_ok src _ [NIdent (pnid s4) (trange t) (tview t)] (pnid s4) (pnid s5)); [cb; pf| | |exact X2|lia|lia|cb; lia|cb; lia].
        * pm. reflexivity.
        * apply local_mk; try exact Logic.I; cb; auto; [lia|].
          split; [exact X1|]. split; [reflexivity|]. split; [exact Logic.I|]. split; [exact Logic.I|]. intros X; congruence.
    - tolt t. bnd. cs t bf s4. bnd. al. bnd. fr s5. bnd. tl. bnd. fr s6. apply wp_ret. lastin s5. fin; [|exact St].
      destruct (Cm (pnid s5) (mkRange (lcur (trange t0)) (lastc s5)) None None (Some (NMisc (pnid s4) (trange t))) eq_refl) as [X1 X2]; [cb; lia|].
      apply (mk_ok src _ [NMisc (pnid s4) (trange t)] (pnid s4) (pnid s5)); [cb; pf| | |exact X2|lia|lia|cb; lia|cb; lia].
      + pm. reflexivity.
      + apply local_mk; try exact Logic.I; cb; auto; [lia|].
        split; [exact X1|]. split; [exact Logic.I|]. split; [exact Logic.I|]. split; [reflexivity|]. auto. }
  destruct (tkind_beq (tk t0) tok_comma) eqn:Ek.
  - apply tkind_beq_eq in Ek. tolt t0. bnd. cs t0 bf0 s2. bnd. fr s3. apply wp_ret. apply (Body (Some _)); auto; [mv|].
    split; [eapply fine_sok; eapply (misc_fine src (pnid s2) t0 _ (pnid s2) (S (pnid s2))); [eassumption|congruence|congruence|lia]|].
    split; [reflexivity|]. split; [reflexivity|]. split; [cb; lia|]. split; [cb; lia|has].
  - apply wp_ret. apply (Body None); auto. apply mvd_refl.
Qed.

Lemma fun_formalsloop t l s : let q := QFormalsLoop t l in
  Inv s -> pre q s -> T src q s <= fuel -> wp (parseFormalsLoop src rec t l) (post q s) s.
Proof.
  intros q I [Hm ((Tk & Ek & Hh & Hlt & Ac) & Hx)] Ht. subst q. unfold T in Ht. cbn [rank] in Ht. facts s.
  tokf t. tolt t.
  assert (Fin : forall s1, Inv s1 -> mvd s s1 -> wp (let! er := expect src tok_r_curly in
    do! (match er with Some _ => consume | None => noteMatch (trange t) tok_l_curly end) in
    let! r := toLast (lcur (trange t)) in
    let! f := onFormals src r l in
    ok_ f) (post (QFormalsLoop t l) s) s1).
  { intros s1 I1 M1. dd. facts s1.
    assert (Fin2 : forall s2, Inv s2 -> mvd s1 s2 -> wp (let! r := toLast (lcur (trange t)) in
       let! f := onFormals src r l in ok_ f) (post (QFormalsLoop t l) s) s2).
    { intros s2 I2 M2. dd. facts s2. destruct Ac as (Cin & a0 & Ha0 & G). bnd. tl. bnd.
      apply wp_onFormals; [assumption| |apply (g_apart src _ _ _ _ _ G)|].
      { apply Forall_and2; [eapply grp_sok; exact G|exact Hx]. }
      intros i d s3 ? ? ?. dd. facts s3. apply wp_ret. lastin s2. fin; [|reflexivity].
      apply (mk_ok src _ l a (pnid s)); try (cb; lia).
      - cb. eapply grp_mono; [apply (grp_reid src _ _ a0 _ a _ G Hi)|..]; lia.
      - pm. reflexivity.
      - apply local_mk; try exact Logic.I; cb; auto. lia.
      - constructor. }
    bnd. ex t2 bf2 s2.
    - bnd. cs t2 bf2 s3. apply Fin2; auto. mv.
    - bnd. nm s3. apply Fin2; auto. mv. }
  bnd. pk t1 bf s1. destruct (tkind_beq (tk t1) tok_r_curly) eqn:E.
  { apply Fin; auto. mv. }
  bnd. rc n s2.
  - cbn [pre]. split; [congruence|exact Logic.I].
  - bnd. apply wp_removeUnexpected; [assumption|congruence| |].
    + intros s3 t2 bf2 ? ? ? ? ? ?. dd. facts s3. rc n s4.
      * split; [congruence|]. split; [|assumption]. split; [exact Tk|]. split; [exact Ek|]. split; [has|].
        split; [lia|]. apply (acc_peek _ _ s); auto; lia.
      * nn.
      * tail; auto. intros a Ha Hi. cbn [accum] in *. split; [lia|]. eapply idl_mono; eauto; lia.
    + intros s3 t2 bf2 ? ? ? ?. dd. facts s3. apply Fin; auto. mv.
  - plain_facts n. rc m s3.
    + split; [congruence|]. split; [|apply Forall_app; auto]. split; [exact Tk|]. split; [exact Ek|]. split; [has|].
      split; [lia|]. apply (acc_one _ _ s1); auto; try lia. apply (acc_peek _ _ s); auto; lia.
    + nn.
    + tail; auto. intros a Ha Hi. cbn [accum] in *. split; [lia|]. apply (idl_one src _ (pnid s1)); auto; try lia.
      replace (pnid s1) with (pnid s) by congruence. exact Hi.
Qed.

Lemma fun_formals s : Inv s -> pre QFormals s -> T src QFormals s <= fuel -> wp (parseFormals src rec) (post QFormals s) s.
Proof.
  intros I [Hm _] Ht. unfold T in Ht. cbn [rank] in Ht. facts s. bnd.
  assert (Fin : forall t bf s1, Inv s1 -> mvd s s1 -> pbuf s1 = t :: bf -> tk t = tok_l_curly -> wp (do! consume in
      do! assertLast in
      withSync tok_r_curly (withSync tok_comma (withSync tok_question (withSync tok_id (
        rec (QFormalsLoop t [])))))) (post QFormals s) s1).
  { intros t bf s1 I1 M1 B1 Ek. dd. facts s1. frontk t bf s1 B1 I1. tolt t. bnd. cs t bf s2. bnd. al. sy s3. sy s4. sy s5. sy s6.
    rc n s7.
    - split; [congruence|]. split; [|constructor]. split; [mode_t t|]. split; [exact Ek|]. split; [has|]. split; [lia|].
      split; [assumption|]. exists (pnid s6). split; [lia|apply grp_nil].
    - nn.
    - ys s8. ys s9. ys s10. ys s11. tail; [auto| |inil]. cbn [begins]. intros ->. lia. }
  assert (D : front s [tok_l_curly] \/ ~ front s [tok_l_curly]).
  { destruct (pbuf s) as [|t bf] eqn:E; [right; intros (t & bf & E2 & _); congruence|].
    destruct (tkind_beq (tk t) tok_l_curly) eqn:K.
    - apply tkind_beq_eq in K. left. exists t, bf. split; [exact E|left; auto].
    - apply tkind_beq_neq in K. right. intros (t' & bf' & E2 & [Z|[]]). congruence. }
  destruct D as [(t & bf & E & [Ek|[]])|D].
  - apply (wp_expect_front src t bf); auto. intros s1 I1 S1. apply (Fin t bf); auto; [dd; mv|destruct S1; congruence].
  - ex t bf s1.
    + apply (Fin t bf); auto. mv.
    + apply wp_ret. none.
Qed.

Lemma fun_lambdaarg s : Inv s -> pre QLambdaArg s -> T src QLambdaArg s <= fuel -> wp (parseLambdaArg src rec) (post QLambdaArg s) s.
Proof.
  intros I [Hm (t & bf & Eb & Hk)] Ht. unfold T in Ht. cbn [rank] in Ht. facts s. frontk t bf s Eb I.
  assert (K : tk t <> tok_eof /\ tk t <> tok_path_end) by (destruct Hk as [<-|[<-|[]]]; split; discriminate). destruct K.
  tolt t. bnd. pkf t bf. bnd. pkf t bf.
  destruct (tkind_beq (tk t) tok_id) eqn:Ek.
  - bnd. cs t bf s1. bnd. al. bnd. fr s2. bnd. pk t2 bf2 s3.
    destruct (tkind_beq (tk t2) tok_at) eqn:Ek2; cbn [negb].
    + apply tkind_beq_eq in Ek2. tolt t2. bnd. cs t2 bf2 s4. bnd. oc f s5; [split; [congruence|exact Logic.I]|]. bnd.
      assert (Fin : forall s6, Inv s6 -> stl s5 s6 -> wp (let! r := toLast (lcur (trange t)) in
         let! a := onLambdaArg r (Some (NIdent (pnid s1) (trange t) (tview t))) f in ok_ a) (post QLambdaArg s) s6).
      { intros s6 I6 S6. dd. facts s6. bnd. tl. bnd. apply wp_onLambdaArg; [assumption|assumption|ok_sok|].
        intros i s7 ? ? ?. dd. facts s7. apply wp_ret. lastin s6. fin; [|here].
        mk ([NIdent (pnid s1) (trange t) (tview t)] ++ optlist f) (pnid s1) (pnid s5).
        - cat_ (lastpos s1) (pnid s2).
        - reflexivity.
        - split; [reflexivity|ok_kind]. }
      destruct f as [f|].
      * apply wp_ret. apply Fin; auto. apply stl_refl.
      * bnd. apply wp_fix1_rem; [assumption|]. bnd. apply wp_fix1_ins; [discriminate|]. em s6.
        { apply dok_fix; [| |apply dok_fix; [| |apply dok_0; [assumption|reflexivity]]];
            [apply fix_one, edit_ins; [assumption|discriminate]|apply (keeps_dummy _ _ _ (b "{}") After); [listed|apply ins_inserts|reflexivity]
            |apply fix_one; now apply edit_rem|apply keeps_at; reflexivity]. }
        apply Fin; auto. constructor; congruence || lia.
    + bnd. tl. bnd. apply wp_onLambdaArg; [assumption|assumption|exact Logic.I|].
      intros i s4 ? ? ?. dd. facts s4. apply wp_ret. lastin s3. fin; [|here].
      mk [NIdent (pnid s1) (trange t) (tview t)] (pnid s1) (pnid s2).
      * pf.
      * reflexivity.
      * split; [reflexivity|exact Logic.I].
  - apply tkind_beq_neq in Ek.
    assert (Ek1 : tk t = tok_l_curly) by (destruct Hk as [X|[X|[]]]; congruence).
    bnd. rc f s1.
    + split; [congruence|exact Logic.I].
    + exfalso. match goal with H : nonable _ _ |- _ => apply H end. exists t, bf. split; [exact Eb|left; auto].
    + plain_facts f. bnd. al. bnd. pk t2 bf2 s2.
      assert (Fin : forall s3, Inv s3 -> mvd s2 s3 -> wp (let! r := toLast (lcur (trange t)) in
          let! a := onLambdaArg r None (Some f) in ok_ a) (post QLambdaArg s) s3).
      { intros s3 I3 M3. dd. facts s3. bnd. tl. bnd. apply wp_onLambdaArg; [assumption|exact Logic.I|split; [apply F|assumption]|].
        intros i s4 ? ? ?. dd. facts s4. apply wp_ret. lastin s3. fin; [|here].
        mk [f] (pnid s) (pnid s1).
        - pf.
        - reflexivity.
        - split; [exact Logic.I|assumption]. }
      destruct (tkind_beq (tk t2) tok_at) eqn:Ek2; cbn [negb].
      * apply tkind_beq_eq in Ek2. tolt t2. bnd. cs t2 bf2 s3. bnd. ex t3 bf3 s4.
        -- tolt t3. bnd. cs t3 bf3 s5. bnd. fr s6. bnd. tl. bnd. apply wp_onLambdaArg; [assumption|assumption|split; [apply F|assumption]|].
           intros i s7 ? ? ?. dd. facts s7. apply wp_ret. lastin s6. fin; [|here].
           mk ([f] ++ [NIdent (pnid s5) (trange t3) (tview t3)]) (pnid s) (pnid s6).
           ++ cat_ (lastpos s1) (pnid s5).
           ++ cbn [app]. apply perm_swap.
           ++ split; [reflexivity|assumption].
        -- bnd. nm s5. apply Fin; auto. mv.
      * apply Fin; auto. apply mvd_refl.
Qed.

Lemma fun_lambda s : Inv s -> pre QLambda s -> T src QLambda s <= fuel -> wp (parseExprLambda src rec) (post QLambda s) s.
Proof.
  intros I [Hm (t & bf & Eb & Hk)] Ht. unfold T in Ht. cbn [rank] in Ht. facts s. frontk t bf s Eb I.
  bnd. pkf t bf. bnd. rc x s1.
  - split; [congruence|]. exists t, bf. auto.
  - nn.
  - plain_facts x. assert (Hst : starts s (nl x)) by start_in. pose proof (starts_front src _ _ _ _ Eb Hst) as El.
    bnd. al. bnd.
    assert (Fin : forall s2, Inv s2 -> mvd s1 s2 -> lastpos s1 < lastpos s2 \/ 0 < nd s2 -> wp (let! body := rec QExpr in
      do! orNull body "lambda body" in
      let! r := toLast (lcur (trange t)) in
      let! i := fresh in
      ok_ (NLambda i r (Some x) body)) (post QLambda s) s2).
    { intros s2 I2 M2 _. dd. facts s2. bnd. oc bd s3; [split; [congruence|exact Logic.I]|]. bnd. on s4. bnd. tl. bnd. fr s5.
      apply wp_ret. lastin s4. rewrite El in *. fin; [|here].
      mk ([x] ++ optlist bd) (pnid s) (pnid s3).
      - cat_ (lastpos s1) (pnid s1). apply fine_grp; [eapply fine_mono; [eassumption|lia|lia]|cb; rewrite El; lia|cb; lia].
      - reflexivity.
      - split; [assumption|split; [ok_kind|discriminate]]. }
    ex t2 bf2 s2.
    + tolt t2. bnd. cs t2 bf2 s3. apply Fin; auto; [mv|]. left. lia.
    + bnd. apply wp_ret. apply Fin; auto. mv.
Qed.
End Fun.
