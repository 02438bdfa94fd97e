(** Expressions. *)
From Coq Require Import Permutation.
From Verif Require Import Base Diag LexModel LexSpec LexProofs AstModel PSupModel SemaModel ParseModel ParseSpec FixSpec
  ParseInv ParseTree ParseSema ParseStep ParseFun ParseFun2.

Section Fun.
Variable src : bytes.
Notation sok := (sok src). Notation nok := (nok src). Notation local := (local src).
Notation Inv := (Inv src). Notation wp := (wp src). Notation dok := (dok src).
Notation tokok := (tokok src). Notation grp := (grp src). Notation fine := (fine src).
Notation starts := (starts src). Notation pre := (pre src). Notation post := (post src).
Notation len := (List.length src).

Variable fuel : nat.
Variable rec : nt -> P (option node).
Hypothesis R : RecOK src fuel rec.

Lemma fun_select s : Inv s -> pre QSelect s -> T src QSelect s <= fuel -> wp (parseExprSelect rec) (post QSelect s) s.
Proof.
  intros I [Hm _] Ht. unfold T in Ht. cbn [rank] in Ht. facts s. bnd.
  rc x s1; [split; [congruence|exact Logic.I]|apply wp_ret; none|]. bnd.
  assert (plast s1 <> None) by (plain_facts x; assumption). al. bnd. pk t bf s2.
  destruct (tkind_beq (tk t) tok_dot) eqn:Ek; cbn [negb].
  2:{ apply wp_ret. tail; [auto|auto|inil]. }
  apply tkind_beq_eq in Ek. tolt t. plain_facts x. assert (Hst : starts s (nl x)) by start_in.
  bnd. fr s3. set (dot := NDot _ _ _ _). bnd. cs t bf s4. bnd. oc p s5; [split; [congruence|exact Logic.I]|]. bnd.
  assert (Sd : sok dot).
  { eapply fine_sok. eapply (dot_fine src (pnid s2) t _ _ _ (pnid s2) (S (pnid s2))); [eassumption|congruence|congruence|lia]. }
  assert (Fin : forall s6, Inv s6 -> stl s5 s6 -> wp (let! tokor := peek 0 in
      if negb (tkind_beq (tk tokor) tok_kw_or) then
        let! r := toLast (nl x) in
        let! i := fresh in
        ok_ (NSelect i r x (Some dot) p None None)
      else
        do! consume in
        let! dflt := rec QSelect in
        do! (match dflt with
             | Some _ => ret tt
             | None =>
                 do! diagNullExpr "default" in
                 addFix (b "remove `or` keyword") (mkRemoval (trange tokor))
             end) in
        let! r := toLast (nl x) in
        let! i := fresh in
        ok_ (NSelect i r x (Some dot) p dflt None)) (post QSelect s) s6).
  { intros s6 I6 S6. dd. facts s6. bnd. pk t2 bf2 s7.
    destruct (tkind_beq (tk t2) tok_kw_or) eqn:Ek2; cbn [negb].
    - apply tkind_beq_eq in Ek2. tolt t2. bnd. cs t2 bf2 s8. bnd. oc d s9; [split; [congruence|exact Logic.I]|]. bnd.
      assert (Fin2 : forall s10, Inv s10 -> stl s9 s10 -> wp (let! r := toLast (nl x) in
        let! i := fresh in
        ok_ (NSelect i r x (Some dot) p d None)) (post QSelect s) s10).
      { intros s10 I10 S10. dd. facts s10. bnd. tl. bnd. fr s11. apply wp_ret. lastin s10. fin; [|exact Hst].
        mk ([x] ++ optlist p ++ optlist d) (pnid s) (pnid s9).
        - cat_ (lastpos s1) (pnid s2). cat_ (lastpos s5) (pnid s5).
        - reflexivity.
        - cbn [plain_node opt]. unfold dot. cb. lia.
        - split; [assumption|]. split; [reflexivity|]. split; ok_kind.
        - exact Sd.
        - constructor. }
      destruct d as [d|].
      + apply wp_ret. apply Fin2; auto. apply stl_refl.
      + bnd. dn s10. ar s11. apply Fin2; auto. constructor; congruence || lia.
    - bnd. tl. bnd. fr s8. apply wp_ret. lastin s7. fin; [|exact Hst].
      mk ([x] ++ optlist p) (pnid s) (pnid s5).
      + cat_ (lastpos s1) (pnid s2).
      + reflexivity.
      + cbn [plain_node opt]. unfold dot. cb. lia.
      + split; [assumption|]. split; [reflexivity|]. split; [ok_kind|exact Logic.I].
      + exact Sd.
      + constructor. }
  destruct p as [p|].
  - apply wp_ret. apply Fin; auto. apply stl_refl.
  - bnd. apply wp_fix1_rem; [assumption|]. bnd. apply wp_fix1_ins; [discriminate|]. em s6.
    { repeat apply dok_fix; try (apply dok_0; [assumption|reflexivity]); 
          [apply fix_one, edit_ins; [assumption|discriminate]|apply (keeps_dummy _ _ _ (b """dummy""") After); [listed|apply ins_inserts|reflexivity]
          |apply fix_one; now apply edit_rem|apply keeps_dot; [tokr|reflexivity]]. }
    apply Fin; auto. constructor; congruence || lia.
Qed.

Lemma fine_one lo hi a b n : grp lo hi a b [n] -> fine a b n.
Proof.
  intros [H1 _ _ H4]. split; [now apply Forall_inv in H1|]. unfold lids in H4. cbn [flat_map] in H4. now rewrite app_nil_r in H4.
Qed.
Lemma fun_apploop f l s : let q := QAppLoop f l in
  Inv s -> pre q s -> T src q s <= fuel -> wp (parseExprAppLoop rec f l) (post q s) s.
Proof.
  intros q I [Hm ((Cin & a0 & Ha0 & G) & Hlast & Hf & Hx & Hh & Hcl)] Ht. subst q. unfold T in Ht. cbn [rank] in Ht. facts s.
  pose proof (Forall_inv (g_ok src _ _ _ _ _ G)) as Nf. pose proof (expr_ne src f Nf Hf) as Hlt.
  pose proof (nok_range src f Nf) as (_ & Rf & _).
  bnd. rc x s1; [split; [congruence|exact Logic.I]| |].
  - destruct l as [|y l].
    + apply wp_ret. cbn [last] in *. fin.
      * apply (fine_mono src a (pnid s)); [|lia|lia]. apply (fine_one _ _ _ _ _ (grp_reid src _ _ a0 _ a _ G Hi)).
      * exact Hf.
      * reflexivity.
      * unfold nr in *. lia.
      * cln. unfold nr in *. congruence.
    + bnd. fr s2. apply wp_ret.
      assert (Ll : In (last (y :: l) f) (f :: y :: l)).
      { right. destruct (exists_last (l := y :: l)) as (l' & z & E); [discriminate|]. rewrite E, last_last. apply in_or_app.
        right. left. reflexivity. }
      pose proof (g_in src _ _ _ _ _ G) as Gi. pose proof (g_ok src _ _ _ _ _ G) as Gk. rewrite Forall_forall in Gi, Gk.
      pose proof (Gi f (or_introl eq_refl)) as [_ Gf].
      fin.
      * mk (f :: y :: l) a (pnid s).
        -- apply (grp_reid src _ _ a0 _ a _ G Hi).
        -- reflexivity.
        -- apply (nok_range src _ (Gk _ Ll)).
        -- split; [assumption|]. split; [discriminate|assumption].
      * reflexivity.
      * unfold nr in *. lia.
      * cln. unfold nr in *. congruence.
  - plain_facts x. rc m s2.
    + split; [congruence|]. rewrite last_last. split.
      { split; [assumption|]. exists a0. split; [lia|]. rewrite app_comm_cons.
        pose proof (g_in src _ _ _ _ _ G) as Gi. apply Forall_inv in Gi.
        cat_ (off (nr (last l f))) (pnid s). assumption. }
      split; [lia|]. split; [assumption|]. split; [apply Forall_app; auto|]. split; [assumption|assumption].
    + nn.
    + tail; auto. intros a Ha Hi. cbn [accum] in *. split; [lia|]. rewrite app_comm_cons. apply (idl_one src _ (pnid s)); auto; lia.
Qed.

Lemma fun_app s : Inv s -> pre QApp s -> T src QApp s <= fuel -> wp (parseExprApp rec) (post QApp s) s.
Proof.
  intros I [Hm _] Ht. unfold T in Ht. cbn [rank] in Ht. facts s. bnd.
  rc f s1; [split; [congruence|exact Logic.I]|apply wp_ret; none|].
  destruct (maybeLambda f).
  - plain_facts f. assert (Hst : starts s (nl f)) by start_in. rc n s2.
    + split; [congruence|]. cbn [last]. split.
      { split; [assumption|]. exists (pnid s). split; [lia|]. apply fine_grp; auto. }
      split; [lia|]. auto.
    + nn.
    + tail; [auto| |].
      * cbn [begins]. intros ->. exact Hst.
      * intros a Ha _. split; [lia|]. unfold lids. cbn [accum flat_map]. rewrite app_nil_r. eapply idl_mono; [apply F|..]; lia.
  - apply wp_ret. tail; [auto|auto|inil].
Qed.

Lemma fun_expr s : Inv s -> pre QExpr s -> T src QExpr s <= fuel -> wp (parseExpr rec) (post QExpr s) s.
Proof.
  intros I [Hm _] Ht. unfold T in Ht. cbn [rank] in Ht. facts s. bnd. pk t bf s1.
  assert (Disp : forall q s2, Inv s2 -> mvd s1 s2 -> lastc s2 = lastc s1 -> (exists bf2, pbuf s2 = t :: bf2) -> rank q < 7 -> pre q s2 ->
     accum q = [] -> begins src q s2 = starts s2 -> (forall n, kinds q n -> is_expr n) -> q <> QInterp ->
     wp (rec q) (post QExpr s) s2).
  { intros q s2 I2 M2 El (bf2 & B2) Hr Hp Ha Hb Hk Hq. dd. facts s2. frontk t bf2 s2 B2 I2.
    eapply use_rec; [eassumption|assumption|exact Hp|unfold T; lia|intros s3 ? ? ? ?; dd; facts s3|intros n s3 ? ? ?; dd; facts s3].
    - none.
    - split; [assumption|split; [mv|]].
      match goal with H : okres src q s2 n s3 |- _ => apply (res_tail src _ q _ s2 n s3 s3 H) end;
        try reflexivity; try lia; [discriminate|apply Hk| |].
      + rewrite Hb. froe.
      + intros a Ha' _. rewrite Ha. split; [lia|apply idl_nil]. }
  assert (Lam : forall s2, Inv s2 -> mvd s1 s2 -> lastc s2 = lastc s1 -> (exists bf2, pbuf s2 = t :: bf2) ->
     tk t = tok_id \/ tk t = tok_l_curly -> wp (rec QLambda) (post QExpr s) s2).
  { intros s2 I2 M2 El (bf2 & B2) K. apply Disp; auto; try discriminate; eauto; try (cbn; lia).
    - split; [destruct M2; congruence|]. exists t, bf2. split; [assumption|]. simpl. intuition.
    - intros n K2. cbn [kinds] in K2. red in K2. red. now rewrite K2. }
  assert (Op : forall s2, Inv s2 -> mvd s1 s2 -> lastc s2 = lastc s1 -> (exists bf2, pbuf s2 = t :: bf2) ->
     wp (rec (QOp 0)) (post QExpr s) s2).
  { intros s2 I2 M2 El E2. apply Disp; auto; try discriminate; try (cbn; lia).
    split; [destruct M2; congruence|exact Logic.I]. }
  assert (Op0 : wp (rec (QOp 0)) (post QExpr s) s1) by (apply Op; eauto using mvd_refl).
  assert (P1 : la (tk t) -> forall (K : tkind -> P (option node)),
      (forall t1 bf1 s2, Inv s2 -> pbuf s2 = t :: t1 :: bf1 -> mvd s1 s2 -> lastc s2 = lastc s1 -> wp (K (tk t1)) (post QExpr s) s2) ->
      wp (pbind (peekk 1) K) (post QExpr s) s1).
  { intros Hla K HK. bnd. apply (wp_peekk src 1 [t]); auto; [exists bf; auto|].
    intros t1 bf1 s2 I2 B2 P. dd. apply (HK t1 bf1 s2); auto. mv. }
  assert (P2 : forall t1 bf1 s2, Inv s2 -> pbuf s2 = t :: t1 :: bf1 -> mvd s1 s2 -> lastc s2 = lastc s1 ->
      la (tk t) -> la (tk t1) -> forall (K : tkind -> P (option node)),
      (forall t2 bf2 s3, Inv s3 -> pbuf s3 = t :: t1 :: t2 :: bf2 -> mvd s1 s3 -> lastc s3 = lastc s1 -> wp (K (tk t2)) (post QExpr s) s3) ->
      wp (pbind (peekk 2) K) (post QExpr s) s2).
  { intros t1 bf1 s2 I2 B2 M2 E2 Hla Hla1 K HK. bnd. apply (wp_peekk src 2 [t; t1]); auto; [exists bf1; auto|].
    intros t2 bf2 s3 I3 B3 P. dd. apply (HK t2 bf2 s3); auto; [mv|congruence]. }
  destruct (tk t) eqn:Ek; try exact Op0.
  - (* if *) apply Disp; eauto using mvd_refl; try discriminate; try (cbn; lia).
    split; [congruence|]. exists t, bf. split; [assumption|left; auto].
  - (* assert *) apply Disp; eauto using mvd_refl; try discriminate; try (cbn; lia).
    split; [congruence|]. exists t, bf. split; [assumption|left; auto].
  - (* with *) apply Disp; eauto using mvd_refl; try discriminate; try (cbn; lia).
    split; [congruence|]. exists t, bf. split; [assumption|left; auto].
  - (* let *) apply P1; [right; right; right; reflexivity|]. intros t1 bf1 s2 I2 B2 M2 E2.
    destruct (tkind_beq (tk t1) tok_l_curly) eqn:Ek1.
    + apply tkind_beq_eq in Ek1. apply Disp; eauto; try discriminate; try (cbn; lia).
      split; [destruct M2; congruence|]. exists t, t1, bf1. auto.
    + apply Disp; eauto; try discriminate; try (cbn; lia).
      split; [destruct M2; congruence|]. exists t, (t1 :: bf1). split; [assumption|left; auto].
  - (* id *) apply P1; [left; reflexivity|]. intros t1 bf1 s2 I2 B2 M2 E2.
    destruct (tk t1); try (apply Op; eauto; fail); apply Lam; eauto.
  - (* curly *) apply P1; [right; left; reflexivity|]. intros t1 bf1 s2 I2 B2 M2 E2.
    destruct (tk t1) eqn:Ek1; try (apply Op; eauto; fail); try (apply Lam; eauto; fail).
    + apply (P2 t1 bf1); auto; [right; left; reflexivity|left; assumption|]. intros t2 bf2 s3 I3 B3 M3 E3.
      destruct (tk t2) eqn:Ek2; try (apply Op; eauto; fail); try (apply Lam; eauto; fail).
      bnd. apply (wp_peekk src 3 [t; t1; t2]); auto; [exists bf2; auto| |].
      { constructor; [right; left; assumption|]. constructor; [left; assumption|]. constructor; [right; right; left; assumption|constructor]. }
      intros t3 bf3 s4 I4 B4 Pk4. assert (M4 : mvd s1 s4) by (dd; mv). assert (E4 : lastc s4 = lastc s1) by (dd; congruence).
      assert (Attrs : wp (rec QAttrs) (post QExpr s) s4).
      { apply Disp; eauto; try discriminate; try (cbn; lia).
        split; [dd; congruence|]. exists t, (t1 :: t2 :: t3 :: bf3). split; [assumption|right; left; auto]. }
      destruct (tk t3); try exact Attrs; apply Lam; eauto.
    + apply (P2 t1 bf1); auto; [right; left; reflexivity|right; right; left; assumption|]. intros t2 bf2 s3 I3 B3 M3 E3.
      destruct (tk t2) eqn:Ek2; try (apply Op; eauto; fail); apply Lam; eauto.
Qed.
End Fun.
