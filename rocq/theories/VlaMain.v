(** The traversal: every node. *)
From Verif Require Import Base Diag LexModel AstModel SemaModel VlaModel VlaSpec VlaPost VlaBase VlaProofs VlaDfs.

Section A.
Variable primops : list (bytes * bool).
Variable s0 : scope.
Variable root : node.
Hypothesis s0_withs : withs s0 = [].
Notation R := (R s0 root).
Notation cohw := (cohw s0 root).
Notation post := (post cohw).
Notation hist := (hist s0 root).
Notation diagonly := (diagonly s0 root).
Notation lookup := (lookupGlobalPrimOpInfo primops).
Notation emits := (emits primops).
Notation DV := (DV primops).
Notation DC := (DC primops).
Notation okdfs := (okdfs primops s0 root).
Notation runs := (runs primops).

Definition mapped (names : list (bytes * (node * dsource))) (m : list (bytes * nat)) (s : vst) : Prop :=
  forall x d, In (x, d) m <-> exists i nd src, d = total s + i /\ nth_error names i = Some (x, (nd, src)).
Definition filled sc n who names (s s2 : vst) : Prop :=
  forall i x nd src, nth_error names i = Some (x, (nd, src)) -> exists y, defn s2 (total s + i) y /\
     df_syn y = Some nd /\ df_src y = src /\ forall u, In u (df_uses y) <-> used sc n (Binds who names) x u.

Lemma no_uses (l : list nat) (P : nat -> Prop) : (forall u, In u l <-> P u) -> (l = [] <-> forall u, ~ P u).
Proof.
  intros H. split.
  - intros -> u Q. now apply H in Q.
  - intros Q. destruct l as [|u l]; auto. elim (Q u). apply H. now left.
Qed.

Lemma emit_emits sc n who names m s s2 dg : opens n = Some (Binds who names) ->
  (forall i r bd rc st dy, who <> NAttrs i r bd rc st dy) ->
  mapped names m s -> filled sc n who names s s2 -> (unusedIn who m s2 dg <-> emits sc n dg).
Proof.
  intros O Na Hm Hf. destruct (opens_src _ _ _ O) as (_ & K1 & K2 & _). split.
  - intros ([x d] & I & y & nd & k & Y & Sy & Un & Uk & ->). simpl in *.
    apply Hm in I as (i & nd' & src & -> & Q). destruct (Hf _ _ _ _ Q) as (y' & Y' & Sy' & Sr & Us).
    rewrite (defn_fun _ _ _ _ Y Y') in *. assert (nd' = nd) by congruence. subst nd'.
    apply em_unused with (names := names); auto.
    + apply nth_error_In in Q. now rewrite Sr.
    + apply (no_uses _ _ Us). exact Un.
  - intros H. destruct H; try (destruct H; congruence).
    + rewrite O in H. injection H as <- <-. apply In_nth_error in H0 as [i Q].
      exists (x, total s + i). split; [apply Hm; eauto|]. destruct (Hf _ _ _ _ Q) as (y & Y & Sy & Sr & Us).
      exists y, nd, k. simpl. rewrite Sr. split; auto. split; auto. split; [now apply (no_uses _ _ Us)|auto].
    + rewrite O in H. injection H as Q _. now elim (Na _ _ _ _ _ _ Q).
    + subst. now elim K2.
Qed.
Lemma rec_emits sc n i0 r0 bd0 kw st0 dy0 names m s s2 dg :
  opens n = Some (Binds (NAttrs i0 r0 bd0 (Some kw) st0 dy0) names) ->
  mapped names m s -> filled sc n (NAttrs i0 r0 bd0 (Some kw) st0 dy0) names s s2 -> (recIn kw m s2 dg <-> emits sc n dg).
Proof.
  intros O Hm Hf. destruct (opens_src _ _ _ O) as (_ & K1 & K2 & _ & Hr).
  assert (Hr' : forall x nd src, In (x, (nd, src)) names -> src = DS_Rec).
  { destruct Hr as [[_ Q]|[_ Q]]; [now elim (Q i0 r0 bd0 (Some kw) st0 dy0)|exact Q]. }
  unfold recIn. split.
  - intros [N ->]. eapply em_rec; [exact O|]. intros x u I. apply in_map_iff in I as ([x' [nd src]] & <- & I). simpl.
    apply In_nth_error in I as [i Q]. destruct (Hf _ _ _ _ Q) as (y & Y & Sy & Sr & Us).
    revert u. apply (no_uses _ _ Us). apply (N x' (total s + i) y); auto. apply Hm. eauto.
  - intros H. destruct H; try (destruct H; congruence).
    + rewrite O in H. injection H as <- <-. apply Hr' in H0. subst src. discriminate H1.
    + rewrite O in H. injection H as -> -> -> -> -> -> ->. split; auto.
      intros x d y I Y. apply Hm in I as (j & nd & src & -> & Q). destruct (Hf _ _ _ _ Q) as (y' & Y' & Sy & Sr & Us).
      rewrite (defn_fun _ _ _ _ Y Y'). apply (no_uses _ _ Us). intros u. apply H0. apply nth_error_In in Q.
      apply in_map_iff. exists (x, (nd, src)). auto.
    + subst. now elim K2.
Qed.

Lemma open_emit n e sc s who names m s1 l s2 r s3 :
  opens n = Some (Binds who names) -> (forall i r bd rc st dy, who <> NAttrs i r bd rc st dy) ->
  R sc n -> good s -> hist s -> rep s sc e ->
  adds names [] (entered n e s) m s1 ->
  map unenv l = enters sc n ->
  (forall t, In t l -> fst t = (e, sc) \/ fst t = (Frame m (Some who) :: e, Binds who names :: sc)) ->
  (forall s1 n1, In (s1, n1) (enters sc n) -> okdfs n1) ->
  runs (map strip l) s1 s2 ->
  emitEnvLivenessWarning (Frame m (Some who)) s2 = Ok (r, s3) ->
  post (UE e sc (visit sc n)) (visit sc n) (DC sc n) s s3 /\ good s3.
Proof.
  intros O Na Hr G Hh Rp Ad E A IH Rn Em.
  destruct (open_ok primops s0 root n e sc s who names m s1 l s2 O Hr G Hh Rp Ad E A IH Rn) as (Hm & Hf & C).
  apply C. eapply diagonly_ext; [|eapply emit_ok; exact Em]. intros dg. eapply emit_emits; eauto.
Qed.
Lemma open_rec n e sc s i0 r0 bd0 kw st0 dy0 names m s1 l s2 r s3 :
  opens n = Some (Binds (NAttrs i0 r0 bd0 (Some kw) st0 dy0) names) ->
  R sc n -> good s -> hist s -> rep s sc e ->
  adds names [] (entered n e s) m s1 ->
  map unenv l = enters sc n ->
  (forall t, In t l -> fst t = (e, sc) \/ fst t = (Frame m (Some (NAttrs i0 r0 bd0 (Some kw) st0 dy0)) :: e,
     Binds (NAttrs i0 r0 bd0 (Some kw) st0 dy0) names :: sc)) ->
  (forall s1 n1, In (s1, n1) (enters sc n) -> okdfs n1) ->
  runs (map strip l) s1 s2 ->
  checkRec (Some kw) (Some (Frame m (Some (NAttrs i0 r0 bd0 (Some kw) st0 dy0)))) s2 = Ok (r, s3) ->
  post (UE e sc (visit sc n)) (visit sc n) (DC sc n) s s3 /\ good s3.
Proof.
  intros O Hr G Hh Rp Ad E A IH Rn Em.
  destruct (open_ok primops s0 root n e sc s _ names m s1 l s2 O Hr G Hh Rp Ad E A IH Rn) as (Hm & Hf & C).
  apply C. eapply diagonly_ext; [|eapply checkRec_ok; [exact Em|]].
  - intros dg. eapply rec_emits; eauto.
  - intros x d I. apply Hm in I as (i & nd & src & -> & Q). destruct (Hf _ _ _ _ Q) as (y & Y & _). eauto.
Qed.

Lemma dfsAttrs_rec kw st dy e syn src s f s2 sc L :
  dfsAttrs primops (fun m e' => dfs primops m e') (Some kw) st dy e syn src s = Ok (f, s2) ->
  exists m s1, f = Some (Frame m (Some syn)) /\ adds (fields_of src st) [] s m s1 /\
    runs (map strip (triples e (Frame m (Some syn) :: e) sc (L :: sc) st dy)) s1 s2.
Proof.
  intros H. unfold dfsAttrs, isRec in H. cbv beta iota zeta in H. vinv H. apply attrDefs_adds in H0.
  vinv H. vinv H. vinv H. exists a, s1. split; auto. split; auto.
  eapply set_runs; eauto.
Qed.
Lemma dfsAttrs_non st dy e syn src s f s2 sc :
  dfsAttrs primops (fun m e' => dfs primops m e') None st dy e syn src s = Ok (f, s2) ->
  f = None /\ runs (map strip (triples e e sc sc st dy)) s s2.
Proof.
  intros H. unfold dfsAttrs, isRec in H. cbv beta iota zeta in H. vinv H. vinv H. vinv H. split; auto.
  eapply set_runs_plain; eauto.
Qed.

Lemma rec_case n e sc s i0 r0 bd0 rc st dy r s3 f s2 :
  kind_of n <> NK_ExprVar -> kind_of n <> NK_ExprWith ->
  (forall kw, rc = Some kw -> opens n = Some (Binds (NAttrs i0 r0 bd0 rc st dy) (fields_of DS_Rec st)) /\
     enters sc n = in_set sc (Binds (NAttrs i0 r0 bd0 rc st dy) (fields_of DS_Rec st) :: sc) st dy) ->
  (rc = None -> opens n = None /\ enters sc n = in_set sc sc st dy) ->
  R sc n -> good s -> hist s -> rep s sc e ->
  (forall s1 n1, In (s1, n1) (enters sc n) -> okdfs n1) ->
  dfsAttrs primops (fun m e' => dfs primops m e') rc st dy e (NAttrs i0 r0 bd0 rc st dy) DS_Rec (entered n e s) = Ok (f, s2) ->
  checkRec rc f s2 = Ok (r, s3) ->
  post (UE e sc (visit sc n)) (visit sc n) (DC sc n) s s3 /\ good s3.
Proof.
  intros K1 K2 Hk Hn Hr G Hh Rp IH H1 H2. destruct rc as [kw|].
  - destruct (Hk kw eq_refl) as [O E].
    eapply (dfsAttrs_rec _ _ _ _ _ _ _ _ _ sc (Binds (NAttrs i0 r0 bd0 (Some kw) st dy) (fields_of DS_Rec st))) in H1
      as (m & s1 & -> & Ad & Rn).
    eapply open_rec; eauto.
    + rewrite E. apply triples_unenv.
    + intros t I. apply triples_in in I. exact I.
  - destruct (Hn eq_refl) as [O E]. eapply dfsAttrs_non with (sc := sc) in H1 as (-> & Rn).
    simpl in H2. vinv H2. eapply plain_ok; eauto.
    + rewrite E. apply triples_unenv.
    + intros t I. apply triples_in in I as [I|I]; exact I.
Qed.

(** a node whose parts are its children, all in its own scope *)
Lemma generic_case n e sc s s2 : kind_of n <> NK_ExprVar -> kind_of n <> NK_ExprWith -> opens n = None ->
  enters sc n = map (pair sc) (somes (children n)) ->
  R sc n -> good s -> hist s -> rep s sc e ->
  (forall s1 n1, In (s1, n1) (enters sc n) -> okdfs n1) ->
  runs (map (pair e) (somes (children n))) (entered n e s) s2 ->
  post (UE e sc (visit sc n)) (visit sc n) (DC sc n) s s2 /\ good s2.
Proof.
  intros K1 K2 O E Hr G Hh Rp IH Rn.
  eapply plain_ok with (l := map (fun m => (e, sc, m)) (somes (children n))); eauto.
  - rewrite map_map, E. reflexivity.
  - intros t I. apply in_map_iff in I as (m & <- & _). reflexivity.
  - rewrite map_map. exact Rn.
Qed.

Lemma somes_app l1 l2 : somes (l1 ++ l2) = somes l1 ++ somes l2.
Proof. unfold somes. apply flat_map_app. Qed.
Lemma somes_map l : somes (map Some l) = l.
Proof. induction l as [|x l IH]; simpl; auto. now rewrite IH. Qed.
Lemma runs_cons_opt e o l s r s1 s2 : match o with Some m => dfs primops m e | None => vret tt end s = Ok (r, s1) ->
  runs (map (pair e) (somes l)) s1 s2 -> runs (map (pair e) (somes (o :: l))) s s2.
Proof.
  intros H1 H2. change (o :: l) with ([o] ++ l). rewrite somes_app, map_app. eapply runs_app; [eapply opt_runs; eauto|exact H2].
Qed.
Lemma runs_list e l s r s' : vfor (fun m => dfs primops m e) l s = Ok (r, s') -> runs (map (pair e) l) s s'.
Proof.
  intros H. rewrite <- (flat_map_single (pair e)). eapply vfor_runs; [|exact H]. intros x a b0 c Q. eapply runs_one. exact Q.
Qed.
Lemma runs_parts e l s r s' : vfor (fun q : bytes + node => match q with inl _ => vret tt | inr m => dfs primops m e end) l s = Ok (r, s') ->
  runs (map (pair e) (interps l)) s s'.
Proof.
  intros H. unfold interps. rewrite map_flat_map. eapply vfor_runs; [|exact H]. intros [x|x] a b0 c Q.
  - vinv Q. constructor.
  - eapply runs_one. exact Q.
Qed.

Lemma with_case i r kw semi w ex e sc s r1 s1 r2 s2 s3 l :
  let n := NWith i r kw semi w ex in
  l = map (fun m => (e, sc, m)) (somes [w]) ++ map (fun m => (Frame [] (Some n) :: e, WithOf n :: sc, m)) (somes [ex]) ->
  R sc n -> good s -> hist s -> rep s sc e ->
  (forall s1 n1, In (s1, n1) (enters sc n) -> okdfs n1) ->
  withStart n kw (entered n e s) = Ok (r1, s1) ->
  runs (map strip l) s1 s2 ->
  withEnd n kw semi w s2 = Ok (r2, s3) ->
  post (UE e sc (visit sc n)) (visit sc n) (DC sc n) s s3 /\ good s3.
Proof.
  intros n El Hr G Hh Rp IH H1 Rn H3.
  assert (K1 : kind_of n <> NK_ExprVar) by discriminate.
  destruct (withStart_ok s0 root n kw e sc s r1 s1 eq_refl (ex_intro _ i (ex_intro _ r (ex_intro _ semi (ex_intro _ w (ex_intro _ ex eq_refl))))) Rp G H1) as (P1 & G1 & Lr).
  assert (Rp1 : rep s1 sc e) by (eapply rep_post; eauto).
  assert (Hh1 : hist s1).
  { eapply hist_post; [exact Hh|exact P1|]. intros a c [-> ->]. exact Hr. }
  assert (E : map unenv l = enters sc n).
  { subst l. rewrite map_app, !map_map. reflexivity. }
  assert (A : forall t, In t l -> fst t = (e, sc) \/ fst t = (Frame [] (Some n) :: e, WithOf n :: sc)).
  { subst l. intros t I. apply in_app_iff in I as [I|I]; apply in_map_iff in I as (m & <- & _); auto. }
  assert (HR : forall s' m, W3 l s' m -> R s' m).
  { intros s' m I. apply (W3_enters l sc n _ _ E) in I as (sc1 & n1 & I & V). eapply visit_trans; [exact Hr|]. econstructor; eauto. }
  destruct (runs_ok primops s0 root l) with (s := s1) (s' := s2) as [P2 G2]; auto.
  { intros e1 sc1 n1 I. assert (I' : In (sc1, n1) (enters sc n)) by (apply (unenv_in _ _ _ _ _ E); exists e1; exact I).
    split; [eapply IH; eauto|]. eapply visit_trans; [exact Hr|]. econstructor; [exact I'|constructor]. }
  { intros e1 sc1 n1 I. destruct (A _ I) as [Q|Q]; injection Q as -> ->; [exact Rp1|]. constructor; auto. }
  assert (Hh2 : hist s2) by (eapply hist_post; eauto).
  assert (HU : forall d u, U3 l d u <-> UE e sc (visit sc n) d u).
  { intros d u. unfold U3, UE. split.
    - intros (e1 & sc1 & n1 & I & s' & v & y & pre & V & Iv & Eu & Es & Ub & Wk).
      assert (I' : In (sc1, n1) (enters sc n)) by (apply (unenv_in _ _ _ _ _ E); exists e1; exact I).
      assert (V' : visit sc n s' v) by (econstructor; eauto).
      destruct (A _ I) as [Z|Z]; injection Z as -> ->.
      + exists s', v, y, pre. auto 6.
      + rewrite walk_cons_with in Wk. exists s', v, y, (pre ++ [WithOf n]). split; auto. split; auto. split; auto. split.
        { rewrite <- app_assoc. exact Es. }
        split; [|exact Wk]. apply unbound_app. split; auto. apply unbound_cons. split; [intros []|intros q []].
    - intros (s' & v & y & pre & V & Iv & Eu & Es & Ub & Wk).
      apply visit_enters in V as [[-> ->]|(sc1 & n1 & I & V)]; [destruct Iv; contradiction|].
      apply (unenv_in _ _ _ _ _ E) in I as [e1 I]. exists e1, sc1, n1. split; auto.
      destruct (A _ I) as [Z|Z]; injection Z as -> ->.
      + exists s', v, y, pre. auto 6.
      + destruct (visit_grow _ _ _ _ V) as [pre' Es']. rewrite Es in Es'. apply app_tail in Es' as ->.
        apply unbound_app in Ub as [Ub1 Ub2]. exists s', v, y, pre'. split; auto. split; auto. split; auto. split.
        { rewrite Es, <- app_assoc. reflexivity. }
        split; auto. now rewrite walk_cons_with. }
  assert (Dn : diagonly (emits sc n) s2 s3).
  { apply withEnd_ok with (s0 := s0) (root := root) in H3. destruct H3 as (Q1 & Q2 & Q3 & Q4 & Q5 & Q6 & Q7).
    dsplit. intros dg Wd C. rewrite (Q7 dg Wd C).
    assert (Hw : emits sc n dg <-> ~ wused sc n /\ dg = withDiag kw semi w).
    { split.
      - intros H. destruct H; try (destruct H; congruence); try discriminate H. injection H as <- <- <- <- <- <-. auto.
      - intros [N ->]. eapply em_with; [reflexivity|exact N]. }
    rewrite Hw. unfold withIn.
    destruct C as [C|C].
    { split; intros [Q|[Q Z]]; auto; subst; now elim C. }
    assert (Hd : exists d y, nfind (nid n) (v_with s2) = Some d /\ defn s2 d y).
    { destruct Lr as (_ & _ & d & y & F & Y & _). exists d. destruct (po_def _ _ _ _ _ _ P2 _ _ Y) as [us Y'].
      eexists. split; [apply (po_with _ _ _ _ _ _ P2); exact F|exact Y']. }
    destruct Hd as (d & y & F & Y).
    assert (Hu : df_uses y = [] <-> ~ wused sc n).
    { split.
      - intros Un (ex' & s' & v & x & I & V & Iv & Ub).
        assert (In (nid v) (df_uses y)); [|rewrite Un in *; contradiction].
        apply (po_wuses _ _ _ _ _ _ P2 _ _ _ F Y). right. exists s', v, x, n.
        split; [apply (W3_enters l sc n _ _ E); eauto|]. split; auto. split; auto. split; auto. split; auto.
        destruct (visit_grow _ _ _ _ V) as [pre ->]. rewrite withs_app. apply in_app_iff. right. now left.
      - intros N. destruct (df_uses y) as [|u us] eqn:Eu; auto. elim N.
        destruct (Hh2 _ _ _ u F Y) as (s' & v & x & w' & V & Iv & Ev & Ub & Iw & Ew); [rewrite Eu; now left|].
        destruct (visit_grow _ _ _ _ V) as [q Es]. subst s'. rewrite withs_app, s0_withs, app_nil_r in Iw.
        unfold withs in Iw. apply in_flat_map in Iw as (ly & Il & Iw). destruct ly; try contradiction. destruct Iw as [->|[]].
        apply in_split in Il as (q1 & q2 & ->).
        destruct (visit_layer _ _ _ _ V (WithOf w') (q2 ++ s0) q1 (WithOf w' :: q2)) as [Z|(o & n1 & Vo & Oo & Io & Vn)].
        + rewrite <- app_assoc. reflexivity.
        + reflexivity.
        + discriminate Z.
        + assert (o = w' /\ kind_of w' = NK_ExprWith) as [-> Kw].
          { destruct o; simpl in Oo; try discriminate Oo.
            - destruct rc; discriminate Oo.
            - destruct attrs as [a|]; [destruct a|]; discriminate Oo.
            - destruct attrs as [a|]; [|discriminate Oo]. destruct a; try discriminate Oo. destruct rc; discriminate Oo.
            - injection Oo as <-. auto.
            - destruct arg; [|discriminate Oo]. destruct body; discriminate Oo. }
          destruct (C _ _ _ _ Vo Hr Kw eq_refl Ew) as [Z1 Z2]. rewrite Z2 in *. clear Z2 w'.
          unfold wused. exists n1, ((q1 ++ WithOf n :: q2) ++ s0), v, x. rewrite <- Z1. auto. }
    rewrite <- Hu. split.
    - intros [Q|[(d' & y' & F' & Y' & Un) Q]]; [now left|right]. split; auto. assert (d' = d) by congruence. subst d'.
      now rewrite (defn_fun _ _ _ _ Y Y').
    - intros [Q|[Un Q]]; [now left|right]. split; auto. exists d, y. auto. }
  split; [|eapply diagonly_good; eauto].
  eapply post_ext; [..|eapply post_seq; [exact G2| |eapply post_seq; [exact G1| |exact P1|exact P2]|eapply diagonly_post; exact Dn]].
  - intros d u. unfold or2, none2. rewrite HU. tauto.
  - intros a c. unfold or2, none2. rewrite (W3_enters l sc n a c E), (visit_enters sc n a c). tauto.
  - intros dg. unfold or1, none1. rewrite (D3_enters primops l sc n dg E). tauto.
  - intros d u [].
  - intros d u Q. apply HU in Q. eapply UE_lt; eauto.
Qed.

Lemma diagonly_pre D n e s s' : diagonly D (entered n e s) s' ->
  exists s'', s' = entered n e s'' /\ diagonly D s s''.
Proof.
  intros (Q1 & Q2 & Q3 & Q4 & Q5 & Q6 & Q7). exists (VS (v_diags s') (v_defs s) (v_with s) (v_todef s) (v_envs s) (v_res s) (v_ws s)).
  split.
  - destruct s'; simpl in *. unfold entered. simpl. congruence.
  - dsplit. exact Q7.
Qed.
Lemma diag_then (U : nat -> nat -> Prop) W D D1 s s1 s2 : good s1 -> (forall d u, U d u -> d < total s) ->
  diagonly D1 s s1 -> post U W D s1 s2 -> post U W (or1 D D1) s s2.
Proof.
  intros G HU Dn P. eapply post_ext; [..|eapply post_seq; [exact G|exact HU|eapply diagonly_post; exact Dn|exact P]];
    unfold or2, or1, none2, none1; intros; tauto.
Qed.
Lemma then_diag (U : nat -> nat -> Prop) W D D1 s s1 s2 : good s1 ->
  post U W D s s1 -> diagonly D1 s1 s2 -> post U W (or1 D D1) s s2 /\ good s2.
Proof.
  intros G P Dn. split; [|eapply diagonly_good; eauto].
  eapply post_ext; [..|eapply post_seq; [exact G| |exact P|eapply diagonly_post; exact Dn]];
    unfold or2, or1, none2, none1; intros; tauto.
Qed.

Ltac gen := eapply generic_case; eauto; try discriminate.

Lemma no_hints n : kind_of n <> NK_ExprSelect -> kind_of n <> NK_ExprLet -> forall d, ~ hints primops n d.
Proof. intros K1 K2 d H. destruct H; subst; [now apply K1|now apply K1|now apply K2]. Qed.
Lemma plain_hints n (U : nat -> nat -> Prop) W sc s s' : (forall d, ~ hints primops n d) ->
  post U W (DC sc n) s s' /\ good s' -> post U W (DV sc n) s s' /\ good s'.
Proof.
  intros N [P G]. split; auto. eapply post_ext; [..|exact P]; try tauto. intros d. rewrite (DV_DC primops sc n d).
  pose proof (N d). tauto.
Qed.

Lemma dfs_ok : forall k n, vsize n < k -> okdfs n.
Proof.
  induction k as [|k IHk]; intros n Hk; [lia|].
  intros e sc s s' Hr G Hh Rp H.
  assert (IH : forall s1 n1, In (s1, n1) (enters sc n) -> okdfs n1).
  { intros s1 n1 I. apply IHk. apply enters_size in I. lia. }
  clear IHk Hk.
  assert (HsubC : forall s2, match n with NVar _ _ _ | NLambda _ _ _ _ | NAttrs _ _ _ _ _ _ | NLet _ _ _ _ _ _ | NLegacyLet _ _ _ _ | NWith _ _ _ _ _ _ => False | _ => True end ->
    runs (map (pair e) (somes (children n))) (entered n e s) s2 ->
    post (UE e sc (visit sc n)) (visit sc n) (DC sc n) s s2 /\ good s2).
  { intros s2 Hn Rn. eapply generic_case; eauto; destruct n; try discriminate; try contradiction; reflexivity. }
  assert (Hsub : forall s2, match n with NSelect _ _ _ _ _ _ _ => False | NVar _ _ _ | NLambda _ _ _ _ | NAttrs _ _ _ _ _ _ | NLet _ _ _ _ _ _ | NLegacyLet _ _ _ _ | NWith _ _ _ _ _ _ => False | _ => True end ->
    runs (map (pair e) (somes (children n))) (entered n e s) s2 ->
    post (UE e sc (visit sc n)) (visit sc n) (DV sc n) s s2 /\ good s2).
  { intros s2 Hn Rn. apply plain_hints; [apply no_hints; destruct n; try discriminate; contradiction|].
    apply HsubC; auto. destruct n; auto. }
  destruct n; cbn [dfs] in H; vinv H; apply insEnv_entered in H0; subst s1;
    lazymatch goal with |- context [NSelect] => idtac | _ => try (apply Hsub; [exact I|cbn [children]; clear Hsub HsubC]) end.
  - vinv H. constructor.
  - vinv H. constructor.
  - vinv H. constructor.
  - vinv H. constructor.
  - vinv H. constructor.
  - eapply opt_runs; eauto.
  - rewrite somes_map. eapply runs_parts; eauto.
  - eapply runs_one; eauto.
  - eapply runs_one; eauto.
  - vinv H. constructor.
  - vinv H. eapply runs_cons_opt; eauto. vinv H. eapply (runs_cons_opt e (Some n)); eauto. eapply opt_runs; eauto.
  - eapply var_ok; eauto.
  - eapply runs_one; eauto.
  - vinv H. rewrite map_app, somes_app, !somes_map, map_app. eapply runs_app; eapply runs_list; eauto.
  - vinv H. eapply (runs_cons_opt e (Some n)); eauto. vinv H. eapply runs_cons_opt; eauto. eapply opt_runs; eauto.
  - vinv H. rewrite somes_app, somes_map, map_app. eapply runs_app; [eapply runs_list; eauto|eapply opt_runs; eauto].
  - rewrite somes_map. eapply runs_list; eauto.
  - vinv H. apply plain_hints; [apply no_hints; discriminate|]. eapply rec_case; [| | | | | | | | |exact H0|exact H]; eauto; try discriminate.
    + intros kw ->. split; reflexivity.
    + intros ->. split; reflexivity.
  - vinv H. vinv H. vinv H.
    destruct (HsubC s3 I) as [P G'].
    2:{ apply (checkBuiltins_ok primops s0 root) in H; [|reflexivity].
        destruct (then_diag _ _ _ _ _ _ _ G' P H) as [P' G2].
        split; auto. eapply post_ext; [..|exact P']; try tauto. intros d. unfold or1. rewrite DV_DC. tauto. }
    cbn [children]. eapply (runs_cons_opt e (Some n)); eauto. eapply runs_cons_opt; eauto. eapply opt_runs; eauto.
  - vinv H. eapply (runs_cons_opt e (Some n)); eauto. rewrite somes_map. eapply runs_list; eauto.
  - rewrite somes_map. eapply runs_list; eauto.
  - vinv H. eapply runs_cons_opt; eauto. vinv H. eapply runs_cons_opt; eauto. eapply opt_runs; eauto.
  - vinv H. eapply runs_cons_opt; eauto. eapply opt_runs; eauto.
  - (* let *) clear Hsub HsubC. vinv H.
    destruct attrs as [at0|]; [destruct at0; try discriminate|].
    + destruct rc as [kw|]; [|discriminate]. unfold isRec, negb in H0. cbv beta iota in H0. vinv H0.
      apply (checkLet_ok primops s0 root id r n kwin e0 id0 r0 body (Some kw) st dy) in H1. apply diagonly_pre in H1 as (s'' & -> & Dn).
      set (n0 := NLet id r n kwin e0 (Some (NAttrs id0 r0 body (Some kw) st dy))) in *.
      eapply (dfsAttrs_rec _ _ _ _ _ _ _ _ _ sc (Binds n0 (fields_of DS_Let st))) in H0
        as (m & s4 & -> & Ad & Rn). vinv H.
      assert (G2 : good s'') by (eapply diagonly_good; eauto).
      assert (Rp2 : rep s'' sc e) by (eapply rep_post; [eapply diagonly_post; exact Dn|exact Rp]).
      assert (Hh2 : hist s'').
      { eapply hist_post; [exact Hh|eapply diagonly_post; exact Dn|]. intros ? ? []. }
      destruct (open_emit n0 e sc s'' n0 (fields_of DS_Let st) m s4
        (triples e (Frame m (Some n0) :: e) sc (Binds n0 (fields_of DS_Let st) :: sc) st dy ++
         map (fun x => (Frame m (Some n0) :: e, Binds n0 (fields_of DS_Let st) :: sc, x)) (somes [e0])) s2 tt s') as [P G'];
        auto; try discriminate.
      * rewrite map_app, triples_unenv, map_map. reflexivity.
      * intros t I. apply in_app_iff in I as [I|I]; [now apply triples_in in I|].
        apply in_map_iff in I as (x & <- & _). now right.
      * rewrite map_app, map_map. eapply runs_app; [exact Rn|]. exact (opt_runs _ _ _ _ _ _ H0).
      * split; auto. eapply post_ext; [..|eapply diag_then; [exact G2| |exact Dn|exact P]]; try tauto.
        -- intros d. unfold or1. rewrite DV_DC. tauto.
        -- intros d u Q. eapply UE_lt; [exact Rp|exact Q].
    + apply plain_hints; [intros d Q; destruct Q; discriminate|]. vinv H0. vinv H. set (n0 := NLet id r n kwin e0 None) in *.
      eapply (open_emit n0 e sc s n0 [] [] (entered n0 e s)
        (map (fun x => (Frame [] (Some n0) :: e, Binds n0 [] :: sc, x)) (somes [e0])) s1 tt s');
        auto; try discriminate.
      * constructor.
      * rewrite map_map. reflexivity.
      * intros t I. apply in_map_iff in I as (x & <- & _). now right.
      * rewrite map_map. exact (opt_runs _ _ _ _ _ _ H0).
  - (* legacy let *) clear Hsub HsubC. apply plain_hints; [apply no_hints; discriminate|]. destruct attrs as [at0|].
    + destruct at0; try discriminate. vinv H. eapply rec_case; [| | | | | | | | |exact H0|exact H]; eauto; try discriminate.
      * intros kw ->. split; reflexivity.
      * intros ->. split; reflexivity.
    + vinv H. eapply plain_ok with (l := []); eauto; try discriminate; [intros t []|constructor].
  - (* with *) clear Hsub HsubC. apply plain_hints; [apply no_hints; discriminate|]. vinv H. vinv H. vinv H.
    eapply with_case; [reflexivity|..|exact H0| |exact H]; auto.
    rewrite map_app, !map_map. eapply runs_app; [exact (opt_runs _ _ _ _ _ _ H1)|exact (opt_runs _ _ _ _ _ _ H2)].
  - vinv H. constructor.
  - vinv H. eapply (runs_cons_opt e (Some n)); eauto. vinv H. eapply runs_cons_opt; eauto. eapply opt_runs; eauto.
  - vinv H. eapply runs_cons_opt; eauto. eapply opt_runs; eauto.
  - vinv H. eapply (runs_cons_opt e (Some n)); eauto. eapply opt_runs; eauto.
  - destruct ell as [q|]; [eapply (opt_runs _ e (Some q)); eauto|]. vinv H. eapply runs_cons_opt; eauto. eapply opt_runs; eauto.
  - rewrite somes_map. eapply runs_list; eauto.
  - vinv H. eapply runs_cons_opt; eauto. eapply opt_runs; eauto.
  - (* lambda *) clear Hsub HsubC. apply plain_hints; [apply no_hints; discriminate|]. destruct body as [bd|].
    2:{ vinv H. eapply plain_ok with (l := []); eauto; try discriminate.
        - destruct arg; reflexivity.
        - destruct arg; reflexivity.
        - intros t [].
        - constructor. }
    destruct arg as [a0|]; [|discriminate]. vinv H. apply lambdaDefs_adds in H0. vinv H. vinv H.
    set (n0 := NLambda id r (Some a0) (Some bd)) in *.
    eapply (open_emit n0 e sc s n0 (params a0) a1 s1
      (map (fun x => (Frame a1 (Some n0) :: e, Binds n0 (params a0) :: sc, x)) (defaults a0 ++ [bd])) s3 tt s');
      auto; try discriminate.
    + rewrite map_map, map_app. reflexivity.
    + intros t I. apply in_map_iff in I as (x & <- & _). now right.
    + rewrite map_map, map_app. eapply runs_app; [|eapply runs_one; exact H2].
      unfold strip. cbn [fst snd]. destruct a0; try (vinv H1; constructor). destruct formals as [f|]; [|vinv H1; constructor].
      destruct f; try (vinv H1; constructor). cbn [defaults]. rewrite map_flat_map. eapply vfor_runs; [|exact H1].
      intros x p q z Q. cbv beta in Q. destruct x; try (vinv Q; constructor). destruct dflt; [|vinv Q; constructor].
      eapply runs_one. exact Q.
Qed.
End A.
