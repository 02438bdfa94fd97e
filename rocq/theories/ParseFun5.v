(** Expressions that start with a keyword. *)
From Coq Require Import Permutation.
From Verif Require Import Base Diag LexModel LexSpec LexProofs AstModel PSupModel SemaModel ParseModel ParseSpec FixSpec
  ParseInv ParseTree ParseSema ParseStep ParseFun ParseFun2.

Section Fun.
Variable src : bytes.
Notation sok := (sok src). Notation nok := (nok src). Notation local := (local src).
Notation Inv := (Inv src). Notation wp := (wp src). Notation dok := (dok src).
Notation tokok := (tokok src). Notation grp := (grp src). Notation fine := (fine src).
Notation starts := (starts src). Notation pre := (pre src). Notation post := (post src).
Notation len := (List.length src).

Variable fuel : nat.
Variable rec : nt -> P (option node).
Hypothesis R : RecOK src fuel rec.

Lemma kw_text t : tokok PS_Expr t -> tk t = tok_kw_let -> text_of src (trange t) = b "let".
Proof.
  intros ((_ & _ & _ & V) & Sp & _) E. unfold text_of. rewrite <- V. rewrite E in Sp.
  destruct Sp as [Sp|[_ [[X _]|[X _]]]]; try discriminate. inversion Sp; subst; try discriminate.
  match goal with X : In _ documented |- _ => revert X end. unfold documented. simpl.
  intros X. repeat (destruct X as [X|X]; [try discriminate; injection X as <-; reflexivity|]). destruct X.
Qed.

Lemma fun_if s : Inv s -> pre QIf s -> T src QIf s <= fuel -> wp (parseExprIf src rec) (post QIf s) s.
Proof.
  intros I [Hm (t & bf & Eb & Hk)] Ht. unfold T in Ht. cbn [rank] in Ht. facts s. frontk t bf s Eb I.
  assert (Ek : tk t = tok_kw_if) by (destruct Hk as [<-|[]]; reflexivity). tolt t.
  bnd. pkf t bf. bnd. pkf t bf. bnd. ps. bnd. cs t bf s1. bnd. al. sy s2. sy s3.
  pose (done := fun c th el : option node => let! r := toLast (lcur (trange t)) in let! i := fresh in ok_ (NIf i r c th el)).
  assert (Fin : forall c th el s4, Inv s4 -> mvd s3 s4 ->
     grp (lastpos s1) (lastpos s4) (pnid s3) (pnid s4) (optlist c ++ optlist th ++ optlist el) ->
     opt is_expr c -> opt is_expr th -> opt is_expr el ->
     wp (done c th el) (closing src tok_kw_else (psync s2) (closing src tok_kw_then (psync s1) (post QIf s))) s4).
  { intros c th el s4 I4 M4 G K1 K2 K3. unfold done. dd. facts s4. bnd. tl. bnd. fr s5. apply wp_ret. ys s6. ys s7.
    lastin s4. fin; [|here]. mk (optlist c ++ optlist th ++ optlist el) (pnid s3) (pnid s4).
    - eapply grp_mono; [exact G|..]; lia.
    - reflexivity.
    - auto. }
  assert (G0 : forall a b c d, grp a b c d ([] ++ [])) by (intros; apply grp_nil).
  bnd. oc c s4; [split; [congruence|exact Logic.I]|]. bnd.
  assert (Fin2 : forall (stop : bool) s5, Inv s5 -> mvd s4 s5 -> wp (if stop : bool then done c None None else
    let! expthen := expect src tok_kw_then in
    match expthen with
    | None => do! noteMatch (trange t) tok_kw_if in done c None None
    | Some _ =>
        do! consume in
        let! th := rec QExpr in
        let! stop := (match th with
                      | Some _ => ret false
                      | None =>
                          do! diagNullExpr "then" in
                          do! noteMatch (trange t) tok_kw_if in
                          let! k := peekk 0 in
                          ret (negb (tkind_beq k tok_kw_else))
                      end) in
        if stop : bool then done c th None else
        let! expelse := expect src tok_kw_else in
        match expelse with
        | None => done c th None
        | Some _ =>
            do! consume in
            let! el := rec QExpr in
            do! (match el with
                 | Some _ => ret tt
                 | None => do! diagNullExpr "else" in noteMatch (trange t) tok_kw_if
                 end) in
            done c th el
        end
    end) (closing src tok_kw_else (psync s2) (closing src tok_kw_then (psync s1) (post QIf s))) s5).
  { intros stop s5 I5 M5. dd. facts s5. destruct stop.
    { apply (Fin c None None); auto; try exact Logic.I; [mv|cbn [optlist]; rewrite !app_nil_r; pf|ok_kind]. }
    bnd. ex t2 bf2 s6.
    2:{ bnd. nm s7. apply (Fin c None None); auto; try exact Logic.I; [mv|cbn [optlist]; rewrite !app_nil_r; pf|ok_kind]. }
    tolt t2. bnd. cs t2 bf2 s7. bnd. oc th s8; [split; [congruence|exact Logic.I]|]. bnd.
    assert (Gct : forall s', lastpos s8 <= lastpos s' -> pnid s8 <= pnid s' ->
       grp (lastpos s1) (lastpos s') (pnid s3) (pnid s') (optlist c ++ optlist th)).
    { intros s' L1 L2. cat_ (lastpos s4) (pnid s7). }
    assert (Fin3 : forall (stop : bool) s9, Inv s9 -> mvd s8 s9 -> wp (
        if stop : bool then done c th None else
        let! expelse := expect src tok_kw_else in
        match expelse with
        | None => done c th None
        | Some _ =>
            do! consume in
            let! el := rec QExpr in
            do! (match el with
                 | Some _ => ret tt
                 | None => do! diagNullExpr "else" in noteMatch (trange t) tok_kw_if
                 end) in
            done c th el
        end) (closing src tok_kw_else (psync s2) (closing src tok_kw_then (psync s1) (post QIf s))) s9).
    { intros stop s9 I9 M9. dd. facts s9. destruct stop.
      { apply (Fin c th None); auto; try exact Logic.I; [mv|cbn [optlist]; rewrite app_nil_r; apply Gct; lia|ok_kind|ok_kind]. }
      bnd. ex t3 bf3 s10.
      2:{ apply (Fin c th None); auto; try exact Logic.I; [mv|cbn [optlist]; rewrite app_nil_r; apply Gct; lia|ok_kind|ok_kind]. }
      tolt t3. bnd. cs t3 bf3 s11. bnd. oc el s12; [split; [congruence|exact Logic.I]|]. bnd.
      assert (Fin4 : forall s13, Inv s13 -> stl s12 s13 -> wp (done c th el)
         (closing src tok_kw_else (psync s2) (closing src tok_kw_then (psync s1) (post QIf s))) s13).
      { intros s13 I13 S13. dd. apply (Fin c th el); auto; try ok_kind; [mv|]. rewrite app_assoc.
        cat_ (lastpos s8) (pnid s8); try (apply Gct; lia). }
      destruct el as [el|].
      - apply wp_ret. apply Fin4; auto. apply stl_refl.
      - bnd. dn s13. nm s14. apply Fin4; auto. constructor; congruence || lia. }
    destruct th as [th|].
    - apply wp_ret. apply (Fin3 false); auto. apply mvd_refl.
    - bnd. dn s9. bnd. nm s10. bnd. pk t3 bf3 s11. apply wp_ret. apply (Fin3 (negb (tkind_beq (tk t3) tok_kw_else))); auto. mv. }
  destruct c as [c|].
  - apply wp_ret. apply (Fin2 false); auto. apply mvd_refl.
  - bnd. dn s5. bnd. ar s6. bnd. ai s7. bnd. pk t2 bf2 s8. apply wp_ret. apply (Fin2 (negb (tkind_beq (tk t2) tok_kw_then))); auto. mv.
Qed.

Lemma fun_assert s : Inv s -> pre QAssert s -> T src QAssert s <= fuel -> wp (parseExprAssert src rec) (post QAssert s) s.
Proof.
  intros I [Hm (t & bf & Eb & Hk)] Ht. unfold T in Ht. cbn [rank] in Ht. facts s. frontk t bf s Eb I.
  assert (Ek : tk t = tok_kw_assert) by (destruct Hk as [<-|[]]; reflexivity). tolt t.
  bnd. pkf t bf. bnd. pkf t bf. bnd. ps. bnd. cs t bf s1. bnd. al. sy s2.
  pose (done := fun c v : option node => let! r := toLast (lcur (trange t)) in let! i := fresh in ok_ (NAssert i r c v)).
  assert (Fin : forall c v s4, Inv s4 -> mvd s2 s4 ->
     grp (lastpos s1) (lastpos s4) (pnid s2) (pnid s4) (optlist c ++ optlist v) ->
     opt is_expr c -> opt is_expr v ->
     wp (done c v) (closing src tok_semi_colon (psync s1) (post QAssert s)) s4).
  { intros c v s4 I4 M4 G K1 K2. unfold done. dd. facts s4. bnd. tl. bnd. fr s5. apply wp_ret. ys s6.
    lastin s4. fin; [|here]. mk (optlist c ++ optlist v) (pnid s2) (pnid s4).
    - eapply grp_mono; [exact G|..]; lia.
    - reflexivity.
    - auto. }
  bnd. oc c s4; [split; [congruence|exact Logic.I]|]. bnd.
  assert (Fin2 : forall (stop : bool) s5, Inv s5 -> mvd s4 s5 -> wp (if stop : bool then done c None else
    let! expsemi := expect src tok_semi_colon in
    match expsemi with
    | None => do! noteMatch (trange t) tok_kw_assert in done c None
    | Some _ =>
        do! consume in
        let! v := rec QExpr in
        do! orNull v "assert value" in
        done c v
    end) (closing src tok_semi_colon (psync s1) (post QAssert s)) s5).
  { intros stop s5 I5 M5. dd. facts s5. destruct stop.
    { apply (Fin c None); auto; try exact Logic.I; [mv|cbn [optlist]; rewrite !app_nil_r; pf|ok_kind]. }
    bnd. ex t2 bf2 s6.
    2:{ bnd. nm s7. apply (Fin c None); auto; try exact Logic.I; [mv|cbn [optlist]; rewrite !app_nil_r; pf|ok_kind]. }
    tolt t2. bnd. cs t2 bf2 s7. bnd. oc v s8; [split; [congruence|exact Logic.I]|]. bnd. on s9.
    apply (Fin c v); auto; try ok_kind; [mv|]. cat_ (lastpos s4) (pnid s7). }
  destruct c as [c|].
  - apply wp_ret. apply (Fin2 false); auto. apply mvd_refl.
  - bnd. dn s5. bnd. ar s6. bnd. pk t2 bf2 s8. apply wp_ret. apply (Fin2 (negb (tkind_beq (tk t2) tok_colon))); auto. mv.
Qed.

Lemma fun_with s : Inv s -> pre QWith s -> T src QWith s <= fuel -> wp (parseExprWith src rec) (post QWith s) s.
Proof.
  intros I [Hm (t & bf & Eb & Hk)] Ht. unfold T in Ht. cbn [rank] in Ht. facts s. frontk t bf s Eb I.
  assert (Ek : tk t = tok_kw_with) by (destruct Hk as [<-|[]]; reflexivity). tolt t.
  bnd. pkf t bf. bnd. pkf t bf. bnd. ps. bnd. cs t bf s1. bnd. fr s2. bnd. al. sy s3.
  bnd. oc w s4; [split; [congruence|exact Logic.I]|]. bnd. on s5. bnd. ex t2 bf2 s6.
  - tolt t2. bnd. fr s7. bnd. cs t2 bf2 s8. bnd. oc e s9; [split; [congruence|exact Logic.I]|]. bnd. on s10.
    bnd. tl. bnd. fr s11. apply wp_ret. ys s12. lastin s10. fin; [|here].
    mk ([NMisc (pnid s1) (trange t)] ++ optlist w ++ [NMisc (pnid s6) (trange t2)] ++ optlist e) (pnid s) (pnid s10).
    + cat_ (lastpos s1) (pnid s2). cat_ (lastpos s4) (pnid s6). cat_ (lastpos s8) (pnid s7).
    + cbn [app]. constructor. symmetry. apply Permutation_middle.
    + split; [reflexivity|]. split; [reflexivity|]. split; ok_kind.
  - bnd. nm s7. bnd. tl. bnd. fr s8. apply wp_ret. ys s9. lastin s7. fin; [|here].
    mk ([NMisc (pnid s1) (trange t)] ++ optlist w) (pnid s) (pnid s7).
    + cat_ (lastpos s1) (pnid s2).
    + reflexivity.
    + split; [reflexivity|]. split; [exact Logic.I|]. split; [ok_kind|exact Logic.I].
Qed.

Lemma fun_let s : Inv s -> pre QLet s -> T src QLet s <= fuel -> wp (parseExprLet src rec) (post QLet s) s.
Proof.
  intros I [Hm (t & bf & Eb & Hk)] Ht. unfold T in Ht. cbn [rank] in Ht. facts s. frontk t bf s Eb I.
  assert (Ek : tk t = tok_kw_let) by (destruct Hk as [<-|[]]; reflexivity). tolt t.
  bnd. pkf t bf. bnd. pkf t bf. bnd. ps. bnd. fr s1. bnd. cs t bf s2. sy s3. bnd. al. bnd.
  oc bs s4; [split; [congruence|exact Logic.I]|]. bnd.
  assert (Sk : sok (NMisc (pnid s) (trange t))).
  { eapply fine_sok. eapply (misc_fine src (pnid s) t _ (pnid s) (S (pnid s))); eauto; congruence. }
  assert (Fin : forall ao s5, Inv s5 -> stl s4 s5 -> grp (lastpos s2) (lastpos s4) (pnid s1) (pnid s5) (optlist ao) ->
     opt (is_kind NK_ExprAttrs) ao ->
     wp (let! expin := expect src tok_kw_in in
    match expin with
    | None =>
        let! r := toLast (lcur (trange t)) in
        let! i := fresh in
        ok_ (NLet i r (NMisc (pnid s) (trange t)) None None ao)
    | Some T =>
        let! kwin := mkMisc (trange T) in
        do! consume in
        let! e := rec QExpr in
        do! orNull e "let ... in" in
        let! r := toLast (lcur (trange t)) in
        let! i := fresh in
        ok_ (NLet i r (NMisc (pnid s) (trange t)) (Some kwin) e ao)
    end) (closing src tok_kw_in (psync s2) (post QLet s)) s5).
  { intros ao s5 I5 S5 G Ka. dd. facts s5. bnd. ex t2 bf2 s6.
    - tolt t2. bnd. fr s7. bnd. cs t2 bf2 s8. bnd. oc e s9; [split; [congruence|exact Logic.I]|]. bnd. on s10.
      bnd. tl. bnd. fr s11. apply wp_ret. ys s12. lastin s10. fin; [|here].
      mk ([NMisc (pnid s) (trange t)] ++ optlist ao ++ [NMisc (pnid s6) (trange t2)] ++ optlist e) (pnid s) (pnid s10).
      + cat_ (lastpos s2) (pnid s1). cat_ (lastpos s4) (pnid s5); [exact G|]. cat_ (lastpos s8) (pnid s7).
      + reflexivity.
      + split; [reflexivity|]. split; [reflexivity|]. split; [ok_kind|exact Ka].
    - bnd. tl. bnd. fr s7. apply wp_ret. ys s8. lastin s6. fin; [|here].
      mk ([NMisc (pnid s) (trange t)] ++ optlist ao) (pnid s) (pnid s5).
      + cat_ (lastpos s2) (pnid s1). eapply grp_mono; [exact G|..]; lia.
      + reflexivity.
      + split; [reflexivity|]. split; [exact Logic.I|]. split; [exact Logic.I|exact Ka]. }
  destruct bs as [bn|].
  - bnd. apply wp_onExprAttrs; [assumption|ok_sok|split; [exact Sk|reflexivity]|].
    intros i st dy s5 ? ? ? Hty Hex. dd. facts s5. apply wp_ret. apply Fin; auto; [constructor; congruence || lia| |reflexivity].
    match goal with H : ores _ _ _ _ _ |- _ => destruct H as [F1 F2 F3 _ _ _ _] end. simpl in F1, F2, F3.
    apply fine_grp; [|cb; lia|cb; lia].
    apply (mk_ok src _ [bn] (pnid s3) (pnid s4)); [cb; pf|reflexivity| |exact Hex|lia|lia|cb; lia|cb; lia].
    pose proof (nok_range src bn (proj1 F1)) as (R1 & R2 & _).
    apply local_mk; cb; auto; try lia. right. apply kw_text; [mode_t t|exact Ek].
  - apply wp_ret. apply Fin; auto; [apply stl_refl|apply grp_nil|exact Logic.I].
Qed.
End Fun.
