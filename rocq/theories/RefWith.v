(** Lemmas for converting `with` to `let`. *)
From Verif Require Import Base Diag LexModel AstModel SemaModel SemaSpec ParseSpec NavModel NavSpec NavProofs VlaModel VlaSpec VlaPost VlaBase
  VlaProofs VlaDfs VlaMain VlaThms ActModel RefModel RefSpec RefProofs SemaProofs.

(** ** sets of names *)
Lemma setAdd_in x y l : In x (setAdd y l) <-> x = y \/ In x l.
Proof.
  induction l as [|z l IH]; simpl; [intuition congruence|].
  destruct (bytes_eqb y z) eqn:E; [apply bytes_eqb_eq in E; subst; simpl; intuition congruence|].
  destruct (bytes_ltb y z); simpl; [intuition congruence|]. rewrite IH. tauto.
Qed.
Lemma setAdd_sorted y l : increasing l -> increasing (setAdd y l).
Proof.
  unfold increasing. induction l as [|z l IH]; intros S; simpl; [repeat constructor|].
  destruct (bytes_eqb y z) eqn:E; [exact S|]. inversion S; subst. destruct (bytes_ltb y z) eqn:L.
  - constructor; auto. constructor; auto. eapply Forall_impl; [|eassumption]. intros w Hw. eapply ltb_trans; eauto.
  - constructor; auto. apply Forall_forall. intros w I. apply setAdd_in in I as [->|I]; [now apply ltb_total|].
    rewrite Forall_forall in *. auto.
Qed.
Lemma names_in (vs : list node) x : forall l, In x (fold_left (fun l v => setAdd (varName v) l) vs l) <->
  In x l \/ exists v, In v vs /\ varName v = x.
Proof.
  induction vs as [|v vs IH]; intros l; simpl.
  - split; [auto|intros [|(v & [] & _)]; auto].
  - rewrite IH, setAdd_in. split.
    + intros [[->|I]|(w & I & E)]; eauto.
    + intros [I|(w & [<-|I] & E)]; eauto.
Qed.
Lemma names_sorted (vs : list node) : forall l, increasing l -> increasing (fold_left (fun l v => setAdd (varName v) l) vs l).
Proof. induction vs as [|v vs IH]; intros l S; simpl; auto. apply IH. now apply setAdd_sorted. Qed.

Lemma declares_dec l x : declares l x \/ ~ declares l x.
Proof.
  destruct l; simpl; try tauto.
  - destruct (in_dec (list_eq_dec ascii_dec) x names); auto.
  - destruct (in_dec (list_eq_dec ascii_dec) x (map fst names)); auto.
Qed.
(** ** the definition of a `with` *)
Lemma with_opener primops root sc v w : visit (prelude primops) root sc v -> In w (withs sc) ->
  exists pre t, sc = pre ++ WithOf w :: t /\ visit (prelude primops) root t w /\ kind_of w = NK_ExprWith.
Proof.
  intros V I. unfold withs in I. apply in_flat_map in I as (l & Il & I). destruct l; try contradiction. destruct I as [->|[]].
  apply in_split in Il as (pre & t & ->). exists pre, t. split; auto.
  destruct (visit_grow _ _ _ _ V) as [p0 Ep].
  assert (Z : exists p1, WithOf w :: t = p1 ++ prelude primops).
  { destruct (exists_last (l := WithOf w :: t)) as (q & z & Ez); [discriminate|]. exists q. rewrite Ez in *.
    unfold prelude in *. rewrite app_assoc in Ep. apply app_inj_tail in Ep as [_ ->]. reflexivity. }
  destruct Z as [p1 Z].
  destruct (visit_layer _ _ _ _ V (WithOf w) t pre p1 eq_refl Z) as [Y|(o & n1 & Vo & Oo & _)].
  - subst p1. discriminate Z.
  - apply opens_with in Oo as [-> K]. auto.
Qed.
Lemma with_uses primops root s d y : vla primops root = Ok s -> coherent primops root ->
  nth_error (v_defs s) d = Some y -> df_src y = DS_With ->
  exists sc i r kw semi we e, visit (prelude primops) root sc (NWith i r kw semi we e) /\ df_syn y = Some kw /\
    nfind i (v_with s) = Some d /\
    forall u, In u (df_uses y) <-> exists v, may_use sc (NWith i r kw semi we e) v /\ nid v = u.
Proof.
  intros H C Y Sw. apply vla_start in H as (s1 & en & _ & Ew & _ & _ & _ & _ & _ & Hd & P & G).
  destruct (Nat.lt_ge_cases d (total s1)) as [L|L].
  { exfalso. destruct (defn_ex s1 d L) as [y0 Y0]. destruct (po_def _ _ _ _ _ _ P _ _ Y0) as [us Y1].
    rewrite (Hd _ _ Y0) in Y1. unfold defn in Y1. simpl in Y1. rewrite Y in Y1. injection Y1 as ->. discriminate. }
  destruct (po_wdef _ _ _ _ _ _ P _ _ L Y Sw) as (sc & i & r & kw & semi & we & e & V & F & S').
  exists sc, i, r, kw, semi, we, e. set (w := NWith i r kw semi we e) in *. split; auto. split; auto. split; auto.
  intros u. rewrite (po_wuses _ _ _ _ _ _ P _ _ _ F Y u). split.
  - intros [(x & F1 & _)|(sc1 & v & x & w1 & Vv & Iv & <- & Ub & Iw & Ei1)]; [rewrite Ew in F1; discriminate|].
    destruct (with_opener _ _ _ _ _ Vv Iw) as (pre & t & -> & Vw & Kw).
    destruct (C _ _ _ _ Vw V Ei1) as [-> ->]. exists v. split; auto.
    destruct (visit_grow _ _ _ _ V) as [p ->].
    destruct (visit_layer _ _ _ _ Vv (WithOf w) (p ++ prelude primops) pre (WithOf w :: p) eq_refl eq_refl) as [Z|(o & n1 & Vo & Oo & Io & Vn)]; [discriminate|].
    exists x, (pre ++ WithOf w :: p ++ prelude primops), pre. split; [|auto].
    apply opens_with in Oo as [<- _]. econstructor; eauto.
  - intros (v & (x & s' & pre & Vv & Iv & Ub & ->) & <-). right. exists (pre ++ WithOf w :: sc), v, x, w.
    split; [eapply visit_trans; eauto|]. split; auto. split; auto. split; auto. split; auto.
    rewrite withs_app. apply in_app_iff. right. now left.
Qed.
Lemma builtin_uses primops root s d y : vla primops root = Ok s -> nth_error (v_defs s) d = Some y -> df_src y = DS_Builtin ->
  df_syn y = None /\ ((forall u, ~ In u (df_uses y)) \/ exists x, forall u, In u (df_uses y) <->
    exists sc v, occurs_at primops root sc v x /\ bound sc x (prelude primops) /\ nid v = u).
Proof.
  intros H Y Sb. apply vla_begin in H as (s1 & a & (Rp & _ & _ & _ & _ & _ & _ & Hd & P & _) & A).
  destruct (Nat.lt_ge_cases d (total s1)) as [L|L].
  - destruct (defn_ex s1 d L) as [y0 Y0]. destruct (po_def _ _ _ _ _ _ P _ _ Y0) as [us Y1].
    pose proof (Hd _ _ Y0) as Ey. subst y0. unfold defn in Y1. simpl in Y1. rewrite Y in Y1. injection Y1 as ->. split; auto.
    pose proof (po_uses _ _ _ _ _ _ P _ _ _ Y0 ltac:(discriminate) Y) as U. simpl in *.
    destruct us as [|u0 us]; [left; auto|right].
    assert (Z : forall u, In u (u0 :: us) <-> UE [Frame a None] (prelude primops) (visit (prelude primops) root) d u) by (intros u; rewrite U; tauto).
    destruct (proj1 (Z u0) (or_introl eq_refl)) as (s0 & v0 & x & p0 & V0 & I0 & E0 & Es0 & U0 & W0). exists x. intros u. rewrite Z. split.
    + intros (s' & v & x' & pre & V & Iv & Ei & -> & Ub & W). simpl in W, W0.
      destruct (bfind x a) eqn:F0; [|discriminate]. destruct (bfind x' a) eqn:F1; [|discriminate]. simpl in W, W0.
      assert (x' = x) by (eapply A; [rewrite F1; exact W|rewrite F0; exact W0]). subst x'.
      exists (pre ++ prelude primops), v. split; [split; auto|]. split; auto. unfold prelude. apply bound_app; auto.
      inversion Rp; subst. match goal with L : lrep _ _ _ |- _ => destruct L as (_ & Lr & _) end. cbn [fr_defs] in Lr. destruct (declares_dec (Prelude (map fst (filter (fun p => negb (snd p)) primops)
            ++ [b "true"; b "false"; b "null"; b "__currentTime"; b "__currentSystem"; b "__nixVersion";
                b "__storeDir"; b "__langVersion"; b "__importNative"; b "__traceVerbose"; b "__nixPath";
                b "derivation"; b "builtins"; b "__curPos"])) x) as [D|D]; auto. apply Lr in D. congruence.
    + intros (s' & v & [V Iv] & B & Ei). destruct (bound_split _ _ _ B) as (pre & l & t & -> & Et & Ub & _).
      exists (pre ++ l :: t), v, x, pre. rewrite <- Et in *. auto 8.
  - exfalso. destruct (po_new _ _ _ _ _ _ P _ _ L Y) as (? & ? & ? & ? & ? & ? & _ & O & _ & I & _); [congruence|].
    apply (opens_roles _ _ _ _ _ _ O) in I as [I _]. contradiction.
Qed.
Lemma kw_def primops root s i r kw semi we e d y :
  vla primops root = Ok s -> coherent primops root -> marked primops root ->
  node_of root (NWith i r kw semi we e) ->
  toDef s kw = Some d -> nth_error (v_defs s) d = Some y ->
  exists sc, visit (prelude primops) root sc (NWith i r kw semi we e) /\
  forall u, In u (df_uses y) <-> exists v, may_use sc (NWith i r kw semi we e) v /\ nid v = u.
Proof.
  intros H C M Nw T Y.
  destruct (toDef_ok _ _ _ _ _ H T) as (y' & nd & Y' & S & Ei). assert (y' = y) by congruence. subst y'.
  destruct (M _ _ _ _ _ _ Nw) as [M1 M2].
  assert (Sw : df_src y = DS_With).
  { destruct (dsource_beq (df_src y) DS_With) eqn:B; [now apply internal_dsource_dec_bl|]. exfalso. apply dsource_neq in B.
    destruct (dsource_beq (df_src y) DS_Builtin) eqn:B2.
    - apply internal_dsource_dec_bl in B2. destruct (builtin_uses _ _ _ _ _ H Y B2) as [Z _]. congruence.
    - apply dsource_neq in B2. destruct (def_declared _ _ _ _ _ H Y B B2) as (sc' & o & x & nd' & D & S' & _).
      apply (M2 _ _ _ _ D). congruence. }
  destruct (with_uses _ _ _ _ _ H C Y Sw) as (sc & i' & r' & kw' & semi' & we' & e' & V & Sy & _ & U).
  pose proof (M1 _ _ _ _ _ _ _ V ltac:(congruence)) as Z. rewrite Z in V, U. exists sc. auto.
Qed.
Lemma with_inner primops root s sc w v x pre : vla primops root = Ok s -> coherent primops root ->
  visit (prelude primops) root sc w -> visit sc w (pre ++ WithOf w :: sc) v -> is_var v x -> unbound (pre ++ WithOf w :: sc) x ->
  match getWithScopes s v with first :: _ :: _ => negb (Nat.eqb first (nid w)) | _ => false end = false -> withs pre = [].
Proof.
  intros H C Vw V Iv Ub T. pose proof (visit_trans _ _ _ _ _ _ Vw V) as V0.
  rewrite (withscopes _ _ _ _ _ _ H C (conj V0 Iv) Ub), withs_app in T.
  destruct (withs pre) as [|w1 ws] eqn:Ws; [reflexivity|]. exfalso. simpl in T.
  destruct (map nid (ws ++ w :: withs sc)) as [|q l] eqn:M; [destruct ws; discriminate|].
  apply Bool.negb_false_iff, Nat.eqb_eq in T.
  assert (I1 : In (WithOf w1) pre).
  { assert (In w1 (withs pre)) as J by (rewrite Ws; now left). unfold withs in J. apply in_flat_map in J as (l0 & I & J).
    destruct l0; try contradiction. destruct J as [->|[]]. exact I. }
  apply in_split in I1 as (p1 & p2 & ->).
  destruct (visit_grow _ _ _ _ Vw) as [p0 ->]. rewrite <- app_assoc in V0. simpl in V0.
  destruct (visit_layer _ _ _ _ V0 (WithOf w1) (p2 ++ WithOf w :: p0 ++ prelude primops) p1 (WithOf w1 :: p2 ++ WithOf w :: p0)) as [Z|(o & n1 & Vo & Oo & _)].
  - reflexivity.
  - simpl. rewrite <- app_assoc. reflexivity.
  - discriminate Z.
  - apply opens_with in Oo as [-> _]. destruct (C _ _ _ _ Vo Vw T) as [Z _].
    apply (f_equal (@List.length _)) in Z. repeat (rewrite app_length in Z; simpl in Z). lia.
Qed.

(** the edit, its names, and the check that no `with` is between *)
Lemma withToLet_ok primops root s m src n ed : vla primops root = Ok s -> coherent primops root -> identified root ->
  marked primops root -> parents root = Ok m -> node_of root n -> withToLet root s m src n = Ok (Some ed) ->
  exists i r kw semi we e sc names t1 t2, let w := NWith i r kw semi (Some we) (Some e) in
    nearest root n NK_ExprWith w /\ visit (prelude primops) root sc w /\ names <> [] /\ increasing names /\
    (forall x, In x names <-> exists v, may_use sc w v /\ is_var v x) /\
    (forall v x pre, visit sc w (pre ++ WithOf w :: sc) v -> is_var v x -> unbound (pre ++ WithOf w :: sc) x -> withs pre = []) /\
    nsrc src we = Ok t1 /\ nsrc src e = Ok t2 /\
    ed = TEdit r (b "let inherit (" ++ t1 ++ b ")" ++ List.concat (map (fun x => b " " ++ x) names) ++ b "; in " ++ t2).
Proof.
  intros H C Id M E N W. unfold withToLet in W. destruct (upTo m n NK_ExprWith) as [[w|]| |] eqn:U; try discriminate.
  pose proof (upTo_nearest _ _ _ _ _ Id E N U) as Ne. destruct (nearest_node _ _ _ _ Ne) as [Nw K].
  cbn [bind] in W. destruct w; try discriminate K.
  match type of Ne with nearest _ _ _ (NWith ?a ?b ?c ?d ?x ?f) => rename a into i, b into r, c into kw, d into semi, x into we, f into e end.
  destruct (isCursorOnWithKeyword kw n); [|discriminate]. cbn [negb] in W.
  destruct (hasNestedWithScope root s (NWith i r kw semi we e) kw) as [[|]| |] eqn:Hn; try discriminate. cbn [bind] in W.
  destruct (collectWithVariables root s kw) as [names| |] eqn:Cn; try discriminate. cbn [bind] in W.
  destruct names as [|x0 names]; [discriminate|]. unfold hasNestedWithScope in Hn. unfold collectWithVariables in Cn.
  destruct (kwDef s kw) as [[y|]| |] eqn:Kd; try discriminate. cbn [bind] in Hn, Cn. unfold kwDef in Kd.
  destruct (toDef s kw) as [d|] eqn:T; [|discriminate]. destruct (nth_error (v_defs s) d) as [y'|] eqn:Y; [|discriminate].
  injection Kd as ->. destruct (kw_def _ _ _ _ _ _ _ _ _ _ _ H C M Nw T Y) as (sc & V & Us).
  set (w := NWith i r kw semi we e) in *.
  assert (Mv : forall v, may_use sc w v -> exists s' x, visit (prelude primops) root s' v /\ is_var v x).
  { intros v (x & s' & pre & Vv & Iv & _). exists s', x. split; auto. eapply visit_trans; eauto. }
  destruct (useNodes_ok primops root (df_uses y) C) as (vs & Ev & Mi & A).
  { intros u I. apply Us in I as (v & Mu & <-). destruct (Mv v Mu) as (s' & x & V' & _). eauto. }
  assert (Iff : forall v, In v vs <-> may_use sc w v).
  { intros v. split; intros I.
    - destruct (A v I) as [sv Vv]. assert (J : In (nid v) (df_uses y)) by (rewrite <- Mi; now apply in_map).
      apply Us in J as (v' & Mu & Ei). destruct (Mv v' Mu) as (s' & x & V' & _). destruct (C _ _ _ _ V' Vv Ei) as [_ <-]. exact Mu.
    - destruct (Mv v I) as (s' & x & V' & _). assert (J : In (nid v) (df_uses y)) by (apply Us; eauto).
      rewrite <- Mi in J. apply in_map_iff in J as (v' & Ei & J). destruct (A v' J) as [sv Vv].
      destruct (C _ _ _ _ Vv V' Ei) as [_ <-]. exact J. }
  rewrite Ev in Hn, Cn. cbn [bind] in Hn, Cn. injection Hn as Hn. injection Cn as Cn.
  destruct we as [we|]; [|discriminate]. destruct e as [e|]; [|discriminate]. unfold generateLetInherit in W.
  destruct (nsrc src we) as [t1| |] eqn:S1; try discriminate. destruct (nsrc src e) as [t2| |] eqn:S2; try discriminate.
  exists i, r, kw, semi, we, e, sc, (x0 :: names), t1, t2. cbv zeta. fold w. rewrite <- Cn.
  split; [exact Ne|]. split; [exact V|]. split; [rewrite Cn; discriminate|]. split; [apply names_sorted; constructor|].
  split; [|split; [|split; [exact S1|split; [exact S2|]]]].
  - intros x. rewrite names_in. split.
    + intros [[]|(v & I & <-)]. exists v. apply Iff in I. split; auto. destruct I as (x & s' & pre & _ & [K1 _] & _). now split.
    + intros (v & Mu & [_ Ex]). right. exists v. split; auto. now apply Iff.
  - intros v x pre Vv Iv Ub. eapply with_inner; eauto.
    assert (I : In v vs) by (apply Iff; exists x, (pre ++ WithOf w :: sc), pre; auto).
    match goal with |- ?t = false => destruct t eqn:B; [|reflexivity] end.
    match type of Hn with existsb ?f vs = _ => assert (X : existsb f vs = true) by (apply existsb_exists; exists v; split; [exact I|exact B]) end.
    rewrite X in Hn. discriminate.
  - cbn [bind] in W. rewrite Cn. symmetry in W.
    change (b "let inherit (") with ("l"%char :: b "et inherit (") in W |- *. cbn [app] in W |- *. injection W as ->. reflexivity.
Qed.

(** ** scopes with the `with` replaced by a `let` *)
Lemma bound_insert p l s x h t : ~ declares l x \/ unbound s x -> bound (p ++ s) x (h :: t) -> exists t', bound (p ++ l :: s) x (h :: t').
Proof.
  intros D. induction p as [|z p IH]; simpl; intros B.
  - destruct D as [D|U].
    + exists t. now constructor.
    + exfalso. destruct (bound_split _ _ _ B) as (q & l' & t' & -> & _ & _ & D). apply (U l'); auto. apply in_app_iff. right. now left.
  - inversion B; subst; [eexists; now constructor|]. destruct (IH ltac:(assumption)) as [t' B']. exists t'. now constructor.
Qed.
Lemma unbound_insert p l s x : ~ declares l x -> unbound (p ++ s) x -> unbound (p ++ l :: s) x.
Proof. intros D U z I. apply in_app_iff in I as [I|[<-|I]]; auto; apply U, in_app_iff; auto. Qed.

(** ** the body and the source of a converted `with` *)
Lemma let_body sc w names new pre x : binds_names new names -> (forall y, In y names -> unbound sc y) ->
  (unbound (pre ++ WithOf w :: sc) x -> In x names) ->
  (unbound (pre ++ WithOf w :: sc) x -> bound (pre ++ new :: sc) x (new :: sc)) /\
  forall h t, bound (pre ++ WithOf w :: sc) x (h :: t) -> exists t', bound (pre ++ new :: sc) x (h :: t').
Proof.
  intros [_ D] Us Un. split.
  - intros U. apply bound_app; [|apply D; auto]. intros l I. apply U, in_app_iff. auto.
  - intros h t B. assert (B' : exists t', bound (pre ++ sc) x (h :: t')).
    { destruct (bound_skip pre (WithOf w) sc x) as [_ Q]; [|eauto]. intros Z.
      destruct (bound_split _ _ _ Z) as (q & l & t0 & _ & E & _ & Dl). injection E as <- <-. exact Dl. }
    destruct B' as [t' B']. eapply bound_insert; [|exact B'].
    destruct (declares_dec new x) as [Dx|Dx]; auto. right. apply Us. now apply D.
Qed.
Lemma let_source sc names new pre x : binds_names new names -> (forall y, In y names -> unbound sc y) ->
  (forall h t, bound (pre ++ sc) x (h :: t) -> exists t', bound (pre ++ new :: sc) x (h :: t')) /\
  (~ In x names -> unbound (pre ++ sc) x -> unbound (pre ++ new :: sc) x /\ withs (pre ++ new :: sc) = withs (pre ++ sc)).
Proof.
  intros [[who [fields ->]] D] Us. split.
  - intros h t B. eapply bound_insert; [|exact B].
    destruct (declares_dec (Binds who fields) x) as [Dx|Dx]; auto. right. apply Us. now apply D.
  - intros N U. split; [|now rewrite !withs_app]. apply unbound_insert; auto. intros Z. now apply N, D.
Qed.

(** ** references *)
Lemma uses_set primops root us (Q : node -> Prop) : coherent primops root -> (forall v, Q v -> exists sc, visit (prelude primops) root sc v) ->
  (forall u, In u us <-> exists v, Q v /\ nid v = u) ->
  exists vs, useNodes root us = Ok vs /\ forall v, In v vs <-> Q v.
Proof.
  intros C V U. destruct (useNodes_ok primops root us C) as (vs & E & M & A).
  { intros u I. apply U in I as (v & R & <-). destruct (V _ R). eauto. }
  exists vs. split; auto. intros v. split; intros I.
  - destruct (A v I) as [sv Vv]. assert (J : In (nid v) us) by (rewrite <- M; now apply in_map).
    apply U in J as (v' & Mu & Ei). destruct (V v' Mu) as (s' & V'). destruct (C _ _ _ _ V' Vv Ei) as [_ <-]. exact Mu.
  - destruct (V v I) as (s' & V'). assert (J : In (nid v) us) by (apply U; eauto).
    rewrite <- M in J. apply in_map_iff in J as (v' & Ei & J). destruct (A v' J) as [sv Vv].
    destruct (C _ _ _ _ Vv V' Ei) as [_ <-]. exact J.
Qed.
Lemma self_name primops root s m n d y : vla primops root = Ok s -> identified root -> parents root = Ok m -> node_of root n ->
  findSelfDefinition s m n = Some d -> nth_error (v_defs s) d = Some y -> exists nd, df_syn y = Some nd /\ on_name root n nd.
Proof.
  intros H Id E N Sd Y. unfold findSelfDefinition in Sd.
  destruct (toDef s n) as [d'|] eqn:T.
  + injection Sd as ->. destruct (toDef_ok _ _ _ _ _ H T) as (y' & nd' & Y' & S' & Ei). exists nd'. split; [congruence|now left].
  + destruct (pquery m n) as [p|] eqn:Pq; [|discriminate]. destruct (nodekind_beq (kind_of p) NK_AttrName) eqn:K; [|discriminate].
    apply internal_nodekind_dec_bl in K. destruct (toDef_ok _ _ _ _ _ H Sd) as (y' & nd' & Y' & S' & Ei).
    exists nd'. split; [congruence|].
    destruct (parent_ok _ _ _ _ Id E N Pq) as [[-> ->]|(_ & Np & Ch)]; [left; exact Ei|right; eauto 8].
Qed.
Lemma references_ok primops root s m n rs : vla primops root = Ok s -> coherent primops root -> identified root ->
  parents root = Ok m -> node_of root n -> findReferences root s m n = value rs ->
  exists vs, rs = map nrange vs /\
  ((exists sc o x nd, declaration primops root sc o x nd /\
      ((exists v v', on_variable root n v /\ refers sc o x v' /\ nid v' = nid v) \/ on_name root n nd) /\
      forall v, In v vs <-> refers sc o x v) \/
   (exists sc i r kw semi we e, let w := NWith i r kw semi we e in visit (prelude primops) root sc w /\
      ((exists v v' sc' x ws, on_variable root n v /\ occurs_at primops root sc' v' x /\ nid v' = nid v /\ unbound sc' x /\
          withs sc' = ws ++ [w]) \/ on_name root n kw) /\
      forall v, In v vs <-> may_use sc w v) \/
   (exists x v v' sc', on_variable root n v /\ occurs_at primops root sc' v' x /\ nid v' = nid v /\
      bound sc' x (prelude primops) /\
      forall v, In v vs <-> exists sc, occurs_at primops root sc v x /\ bound sc x (prelude primops))).
Proof.
  intros H C Id E N R. unfold findReferences in R. apply tbind_value in R as (d & F & R). apply tbind_value in R as (y & Y & R).
  unfold defAt in Y. destruct (nth_error (v_defs s) d) as [y'|] eqn:Y'; [|discriminate]. injection Y as ->.
  destruct (useNodes root (df_uses y)) as [vs| |] eqn:Us; try discriminate. injection R as <-. exists vs. split; auto.
  destruct (dsource_beq (df_src y) DS_With) eqn:B; [apply internal_dsource_dec_bl in B|apply dsource_neq in B].
  - right; left. destruct (with_uses _ _ _ _ _ H C Y' B) as (sc & i & r & kw & semi & we & e & V & Sy & Fw & U).
    exists sc, i, r, kw, semi, we, e. cbv zeta. set (w := NWith i r kw semi we e) in *. split; auto. split.
    + unfold findDefinition in F. apply tbind_value in F as ([v|] & Fv & F).
      * destruct (findVar_on _ _ _ _ Id E N Fv) as [On _]. unfold findVarDefinition in F. left.
        destruct (query s v) as [[|d'|d']|] eqn:Q; try discriminate; injection F as ->.
        -- apply vla_start in H as (s1 & en & _ & _ & _ & _ & Er & _ & _ & _ & P & G).
           destruct (po_res _ _ _ _ _ _ P _ _ Q) as [Z|(sc' & v' & x & V' & Iv & Ei & R)]; [rewrite Er in Z; discriminate|].
           simpl in R. destruct R as (Ub & ws & w' & Ws & F').
           assert (Ew : nid w' = i) by (eapply (proj2 G); eauto).
           destruct (with_opener _ _ _ _ w' V') as (pre & t & -> & Vw & Kw); [rewrite Ws; apply in_app_iff; right; now left|].
           destruct (C _ _ _ _ Vw V Ew) as [_ ->]. exists v, v', (pre ++ WithOf w :: t), x, ws. repeat split; auto; apply Iv.
        -- exfalso. apply vla_start in H as (s1 & en & _ & _ & _ & _ & Er & _ & _ & _ & P & G).
           destruct (po_resuse _ _ _ _ _ _ P _ _ Q) as [Z|(y' & Y1 & Nw & I)]; [rewrite Er in Z; discriminate|].
           rewrite (defn_fun _ _ _ _ Y1 Y') in *. contradiction.
      * destruct (findSelfDefinition s m n) as [d'|] eqn:Sd; [|discriminate]. injection F as ->. right.
        destruct (self_name _ _ _ _ _ _ _ H Id E N Sd Y') as (nd & S & O). congruence.
    + destruct (uses_set primops root (df_uses y) (may_use sc w) C) as (vs' & E' & A); auto.
      { intros v (x & s' & pre & Vv & _). exists s'. eapply visit_trans; eauto. } rewrite Us in E'. injection E' as <-. exact A.
  - destruct (dsource_beq (df_src y) DS_Builtin) eqn:B2; [apply internal_dsource_dec_bl in B2|apply dsource_neq in B2].
    + right; right. unfold findDefinition in F. apply tbind_value in F as ([v|] & Fv & F).
      * destruct (findVar_on _ _ _ _ Id E N Fv) as [On _]. unfold findVarDefinition in F.
        destruct (query s v) as [[|d'|d']|] eqn:Q; try discriminate; injection F as ->.
        { exfalso. apply B. eapply with_source; eauto. }
        pose proof H as H0. apply vla_start in H0 as (s1 & en & _ & _ & _ & _ & Er & _ & _ & _ & P & G).
        destruct (po_resuse _ _ _ _ _ _ P _ _ Q) as [Z|(y' & Y1 & Nw & I)]; [rewrite Er in Z; discriminate|].
        rewrite (defn_fun _ _ _ _ Y1 Y') in *.
        destruct (builtin_uses _ _ _ _ _ H Y' B2) as [_ [Z|(x & U)]]; [elim (Z _ I)|].
        destruct (proj1 (U _) I) as (sc' & v' & Oc & Bd & Ei). exists x, v, v', sc'. split; [exact On|]. split; [exact Oc|]. split; [exact Ei|]. split; [exact Bd|].
        destruct (uses_set primops root (df_uses y) (fun v => exists sc, occurs_at primops root sc v x /\ bound sc x (prelude primops)) C) as (vs' & E' & A).
        -- intros v0 (sc & [V _] & _). eauto.
        -- intros u. rewrite U. split; [intros (sc & v0 & O & B0 & E0)|intros (v0 & (sc & O & B0) & E0)]; eauto 8.
        -- rewrite Us in E'. injection E' as <-. exact A.
      * exfalso. destruct (findSelfDefinition s m n) as [d'|] eqn:Sd; [|discriminate]. injection F as ->.
        destruct (self_name _ _ _ _ _ _ _ H Id E N Sd Y') as (nd & S & O).
        destruct (builtin_uses _ _ _ _ _ H Y' B2) as [Z _]. congruence.
    + left. destruct (found_declared _ _ _ _ _ _ _ H Id E N F Y' B B2) as (sc & o & x & nd & D & S & Cu & U).
      exists sc, o, x, nd. split; auto. split; auto.
      destruct (uses_nodes _ _ _ _ _ _ C (proj1 D) U) as (vs' & E' & _ & A). rewrite Us in E'. injection E' as <-. exact A.
Qed.

(** ** renaming in scopes *)
Lemma renamed_declares x y who names z : declares (renamed_layer x y (Binds who names)) z <->
  exists u, declares (Binds who names) u /\ z = renamed_name x y u.
Proof.
  simpl. rewrite map_map. simpl. split.
  - intros I. apply in_map_iff in I as ((u & r) & <- & I). exists u. split; auto. apply in_map_iff. exists (u, r). auto.
  - intros (u & I & ->). apply in_map_iff in I as ((u' & r) & <- & I). apply in_map_iff. exists (u', r). auto.
Qed.
Lemma rename_here pre who names sc x y : declares (Binds who names) x -> unbound pre y ->
  bound (pre ++ renamed_layer x y (Binds who names) :: sc) y (renamed_layer x y (Binds who names) :: sc).
Proof.
  intros D U. apply bound_app; auto. apply renamed_declares. exists x. split; auto. unfold renamed_name.
  now rewrite (proj2 (bytes_eqb_eq x x) eq_refl).
Qed.
Lemma renamed_other x y who names z : z <> x -> z <> y ->
  (declares (renamed_layer x y (Binds who names)) z <-> declares (Binds who names) z).
Proof.
  intros Nx Ny. rewrite renamed_declares. unfold renamed_name. split.
  - intros (u & D & ->). destruct (bytes_eqb u x); [congruence|auto].
  - intros D. exists z. split; auto. destruct (bytes_eqb z x) eqn:E; auto. apply bytes_eqb_eq in E. contradiction.
Qed.
Lemma rename_other pre who names sc x y z : z <> y -> let l := Binds who names in let l' := renamed_layer x y l in
  (unbound (pre ++ l :: sc) z -> unbound (pre ++ l' :: sc) z /\ withs (pre ++ l' :: sc) = withs (pre ++ l :: sc)) /\
  (forall t, bound (pre ++ l :: sc) z (l :: sc) -> z <> x -> t = sc -> bound (pre ++ l' :: sc) z (l' :: t)) /\
  forall h t, bound (pre ++ l :: sc) z (h :: t) -> ~ bound (pre ++ l :: sc) z (l :: sc) ->
    exists t', bound (pre ++ l' :: sc) z (h :: t').
Proof.
  intros Ny l l'.
  assert (D' : declares l' z -> declares l z).
  { intros D. apply renamed_declares in D as (u & D & E). unfold renamed_name in E. destruct (bytes_eqb u x); [contradiction|subst u; exact D]. }
  split; [|split].
  - intros U. split; [|subst l l'; now rewrite !withs_app].
    intros q I. apply in_app_iff in I as [I|[<-|I]]; [apply U, in_app_iff; auto| |apply U, in_app_iff; simpl; auto].
    intros D. apply (U l); [apply in_app_iff; simpl; auto|auto].
  - intros t B Nx ->. destruct (bound_split _ _ _ B) as (p & q & t & Es & Et & U & D). injection Et as <- <-.
    apply app_inv_tail in Es. subst p. apply bound_app; auto. now apply renamed_other.
  - induction pre as [|a pre IH]; simpl in *; intros h t B N.
    + inversion B; subst; [elim N; assumption|]. exists t. constructor; [|assumption]. intros Z. apply D' in Z. contradiction.
    + inversion B; subst; [eexists; now constructor|]. destruct (IH _ _ H4) as [t' B']; [intros Z; apply N; now constructor|].
      exists t'. now constructor.
Qed.
