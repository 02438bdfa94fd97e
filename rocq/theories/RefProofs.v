(** Lemmas for renaming and references. *)
From Verif Require Import Base Diag LexModel AstModel SemaModel ParseSpec NavModel NavSpec NavProofs VlaModel VlaSpec VlaPost VlaBase VlaProofs
  VlaDfs VlaMain VlaThms ActModel RefModel RefSpec.

(** ** addresses *)
Lemma arena_in k : forall n v s, vsize n < k -> (In v (arena k n) <-> exists s', visit s n s' v).
Proof.
  induction k as [|k IH]; intros n v s H; [lia|]. simpl. rewrite in_flat_map. split.
  - intros [<-|([s1 n1] & I & J)]; [exists s; constructor|]. simpl in J.
    destruct (enters_base s [] n s1 n1 I) as (p & E & I'). pose proof (enters_size _ _ _ _ I) as Z.
    apply (IH n1 v (p ++ s)) in J; [|lia]. destruct J as [s' V]. exists s'. econstructor; eauto.
  - intros [s' V]. inversion V; subst; [now left|right].
    match goal with I : In _ (enters _ _) |- _ => destruct (enters_base [] _ _ _ _ I) as (p & E & I'); pose proof (enters_size _ _ _ _ I) as Z end.
    eexists. split; [exact I'|]. simpl. apply (IH n1 v s1); [lia|]. eauto.
Qed.
Lemma useNode_ok primops root sc v : coherent primops root -> visit (prelude primops) root sc v -> useNode root (nid v) = Ok v.
Proof.
  intros C V. unfold useNode. destruct (find _ _) as [w|] eqn:F.
  - apply find_some in F as [I E]. apply Nat.eqb_eq in E.
    apply (arena_in _ _ _ (prelude primops)) in I as [s' V']; [|lia]. destruct (C _ _ _ _ V' V E) as [_ ->]. reflexivity.
  - exfalso. assert (I : In v (arena (S (vsize root)) root)) by (apply (arena_in _ _ _ (prelude primops)); [lia|eauto]).
    apply (find_none _ _ F) in I. rewrite Nat.eqb_refl in I. discriminate.
Qed.
Lemma useNodes_ok primops root us : coherent primops root ->
  (forall u, In u us -> exists sc v, visit (prelude primops) root sc v /\ nid v = u) ->
  exists vs, useNodes root us = Ok vs /\ map nid vs = us /\ forall v, In v vs -> exists sc, visit (prelude primops) root sc v.
Proof.
  intros C. induction us as [|u us IH]; intros H; [exists []; simpl; repeat split; auto; intros v []|].
  destruct (H u) as (sc & v & V & <-); [now left|]. destruct IH as (vs & E & M & A); [intros u I; apply H; now right|].
  exists (v :: vs). simpl. rewrite (useNode_ok _ _ _ _ C V), E. simpl. repeat split; [now rewrite M|].
  intros w [<-|I]; eauto.
Qed.

(** ** the declaration behind a definition *)
Lemma def_declared primops root s d y : vla primops root = Ok s -> nth_error (v_defs s) d = Some y ->
  df_src y <> DS_With -> df_src y <> DS_Builtin ->
  exists sc o x nd, declaration primops root sc o x nd /\ df_syn y = Some nd /\
    forall u, In u (df_uses y) <-> exists v, refers sc o x v /\ nid v = u.
Proof.
  intros H Y Nw Nb. apply vla_start in H as (s1 & e & _ & _ & _ & _ & _ & _ & _ & Hd & P & _).
  destruct (Nat.lt_ge_cases d (total s1)) as [L|L].
  - destruct (defn_ex s1 d L) as [y0 Y0]. destruct (po_def _ _ _ _ _ _ P _ _ Y0) as [us Y1].
    rewrite (Hd _ _ Y0) in Y1. pose proof (defn_fun _ _ _ _ Y Y1) as E. rewrite E in Nb. now elim Nb.
  - destruct (po_new _ _ _ _ _ _ P _ _ L Y Nw) as (sc & o & who & names & x & nd & V & O & S & I & U).
    exists sc, o, x, nd. split; [split; [exact V|]; exists who, names, (df_src y); auto|]. split; [exact S|].
    intros u. rewrite U. apply used_refers; auto. apply in_map_iff. eexists. split; [|exact I]. reflexivity.
Qed.
Lemma refers_visit primops root sc o x v : visit (prelude primops) root sc o -> refers sc o x v ->
  exists s', occurs_at primops root s' v x.
Proof.
  intros V (who & names & s' & _ & V' & Iv & _). exists s'. split; auto. eapply visit_trans; eauto.
Qed.

(** ** moving up *)
Lemma upTo_nearest root m n k p : identified root -> parents root = Ok m -> node_of root n ->
  upTo m n k = Ok (Some p) -> nearest root n k p.
Proof.
  intros Id E N Q. destruct (up_ok root m (fun k' => nodekind_beq k' k) n Id E N) as (l & C & R).
  exists l. split; auto. unfold upTo in Q. congruence.
Qed.
Lemma find_kind k l p : find (fun q => nodekind_beq (kind_of q) k) l = Some p -> kind_of p = k /\ In p l.
Proof. intros F. apply find_some in F as [I K]. apply internal_nodekind_dec_bl in K. auto. Qed.
Lemma chain_all root n l p : chain root n l -> In p l -> node_of root p.
Proof. induction 1 as [|n q l I C IH]; intros J; [destruct J as [<-|[]]; constructor|].
  destruct J as [<-|J]; auto. eapply chain_node. econstructor; eauto. Qed.
Lemma nearest_node root n k p : nearest root n k p -> node_of root p /\ kind_of p = k.
Proof. intros (l & C & F). apply find_kind in F as [K I]. split; auto. eapply chain_all; eauto. Qed.

(** ** the variable under a cursor *)
Lemma tbind_value {A B} (m : exn A) (k : A -> exn B) r : tbind m k = value r -> exists a, m = value a /\ k a = value r.
Proof.
  unfold tbind, bind, value. destruct m as [[e|a]| |]; intros H; try discriminate. eauto.
Qed.
Lemma findVar_on root m n v : identified root -> parents root = Ok m -> node_of root n ->
  findVar m n = value (Some v) -> on_variable root n v /\ kind_of v = NK_ExprVar.
Proof.
  intros Id E N H. unfold findVar in H. apply tbind_value in H as (o & F & H).
  assert (W : forall v, bind (upTo m n NK_ExprVar) (fun v => value v) = value (Some v) -> on_variable root n v /\ kind_of v = NK_ExprVar).
  { intros w Q. destruct (upTo m n NK_ExprVar) as [q| |] eqn:U; try discriminate. simpl in Q. injection Q as ->.
    pose proof (upTo_nearest _ _ _ _ _ Id E N U) as Ne. split; [now constructor|]. eapply nearest_node; eauto. }
  destruct o as [v'|]; [|now apply W]. injection H as ->.
  unfold findInheritVar in F. destruct (upTo m n NK_Inherit) as [[inh|]| |] eqn:U1; try discriminate.
  pose proof (upTo_nearest _ _ _ _ _ Id E N U1) as N1. simpl in F. destruct inh; try discriminate.
  destruct (upTo m n NK_AttrName) as [[a|]| |] eqn:U2; try discriminate. simpl in F.
  pose proof (upTo_nearest _ _ _ _ _ Id E N U2) as N2.
  destruct e; try discriminate. destruct (staticName a) as [x|] eqn:S; try discriminate.
  destruct (upTo m _ NK_ExprAttrs) as [[at_|]| |] eqn:U3; try discriminate. simpl in F. destruct at_; try discriminate.
  destruct (nearest_node _ _ _ _ N1) as [Ni _]. pose proof (upTo_nearest _ _ _ _ _ Id E Ni U3) as N3.
  match type of F with context [bfind x ?l] => destruct (bfind x l) as [at_|] eqn:B; [|discriminate] end. destruct (nodekind_beq (kind_of (a_value at_)) NK_ExprVar) eqn:K; [|discriminate].
  injection F as <-. split; [|now apply internal_nodekind_dec_bl].
  eapply on_inherited; eauto. now apply bfind_in.
Qed.

(** ** the definition under a cursor *)
Lemma var_declared primops root s v d y : vla primops root = Ok s -> query s v = Some (Defined d) ->
  nth_error (v_defs s) d = Some y -> df_src y <> DS_Builtin ->
  exists sc o x nd, declaration primops root sc o x nd /\ df_syn y = Some nd /\
    (exists v', refers sc o x v' /\ nid v' = nid v) /\
    forall u, In u (df_uses y) <-> exists v, refers sc o x v /\ nid v = u.
Proof.
  intros H Q Y Nb. pose proof H as H'. apply vla_start in H' as (s1 & e & _ & _ & _ & _ & Er & _ & _ & _ & P & _).
  destruct (po_resuse _ _ _ _ _ _ P _ _ Q) as [Z|(y' & Y' & Nw & I)]; [rewrite Er in Z; discriminate|].
  rewrite (defn_fun _ _ _ _ Y' Y) in *.
  destruct (def_declared _ _ _ _ _ H Y Nw Nb) as (sc & o & x & nd & D & S & U).
  exists sc, o, x, nd. split; auto. split; auto. split; auto. now apply U.
Qed.
Lemma with_source primops root s v d y : vla primops root = Ok s -> query s v = Some (FromWith d) ->
  nth_error (v_defs s) d = Some y -> df_src y = DS_With.
Proof.
  intros H Q Y. apply vla_start in H as (s1 & e & _ & _ & _ & _ & Er & _ & _ & _ & P & G).
  destruct (po_res _ _ _ _ _ _ P _ _ Q) as [Z|(sc & v' & x & _ & _ & _ & R)]; [rewrite Er in Z; discriminate|].
  simpl in R. destruct R as (_ & ws & w & _ & F). destruct (proj1 G _ _ F) as (y' & Y' & E).
  now rewrite (defn_fun _ _ _ _ Y Y').
Qed.
Lemma found_declared primops root s m n d y : vla primops root = Ok s -> identified root -> parents root = Ok m ->
  node_of root n -> findDefinition s m n = value d -> nth_error (v_defs s) d = Some y ->
  df_src y <> DS_With -> df_src y <> DS_Builtin ->
  exists sc o x nd, declaration primops root sc o x nd /\ df_syn y = Some nd /\
    ((exists v v', on_variable root n v /\ refers sc o x v' /\ nid v' = nid v) \/ on_name root n nd) /\
    forall u, In u (df_uses y) <-> exists v, refers sc o x v /\ nid v = u.
Proof.
  intros H Id E N F Y Nw Nb. unfold findDefinition in F. apply tbind_value in F as ([v|] & Fv & F).
  - destruct (findVar_on _ _ _ _ Id E N Fv) as [On _]. unfold findVarDefinition in F.
    destruct (query s v) as [[|d'|d']|] eqn:Q; try discriminate; injection F as ->.
    + exfalso. apply Nw. eapply with_source; eauto.
    + destruct (var_declared _ _ _ _ _ _ H Q Y Nb) as (sc & o & x & nd & D & S & (v' & R & Ei) & U).
      exists sc, o, x, nd. split; auto. split; auto. split; [left; exists v, v'; auto|auto].
  - destruct (findSelfDefinition s m n) as [d'|] eqn:Sd; [|discriminate]. injection F as ->.
    destruct (def_declared _ _ _ _ _ H Y Nw Nb) as (sc & o & x & nd & D & S & U).
    exists sc, o, x, nd. split; auto. split; auto. split; [|auto]. right. unfold findSelfDefinition in Sd.
    destruct (toDef s n) as [d'|] eqn:T.
    + injection Sd as ->. destruct (toDef_ok _ _ _ _ _ H T) as (y' & nd' & Y' & S' & Ei). left. congruence.
    + destruct (pquery m n) as [p|] eqn:Pq; [|discriminate]. destruct (nodekind_beq (kind_of p) NK_AttrName) eqn:K; [|discriminate].
      apply internal_nodekind_dec_bl in K. destruct (toDef_ok _ _ _ _ _ H Sd) as (y' & nd' & Y' & S' & Ei).
      assert (Eq : nid nd = nid p) by congruence.
      destruct (parent_ok _ _ _ _ Id E N Pq) as [[-> ->]|(_ & Np & Ch)]; [left; exact Eq|right; eauto 8].
Qed.

Lemma uses_nodes primops root us sc o x : coherent primops root -> visit (prelude primops) root sc o ->
  (forall u, In u us <-> exists v, refers sc o x v /\ nid v = u) ->
  exists vs, useNodes root us = Ok vs /\ List.length vs = List.length us /\ forall v, In v vs <-> refers sc o x v.
Proof.
  intros C V U. destruct (useNodes_ok primops root us C) as (vs & E & M & A).
  { intros u I. apply U in I as (v & R & <-). destruct (refers_visit _ _ _ _ _ _ V R) as (s' & Vv & _). eauto. }
  exists vs. split; auto. split; [now rewrite <- M, map_length|]. intros v. split; intros I.
  - destruct (A v I) as [sv Vv]. assert (J : In (nid v) us) by (rewrite <- M; now apply in_map).
    apply U in J as (v' & R & Ei). destruct (refers_visit _ _ _ _ _ _ V R) as (s' & Vv' & _).
    destruct (C _ _ _ _ Vv' Vv Ei) as [_ <-]. exact R.
  - assert (J : In (nid v) us) by (apply U; eauto). rewrite <- M in J. apply in_map_iff in J as (v' & Ei & J).
    destruct (A v' J) as [sv Vv]. destruct (refers_visit _ _ _ _ _ _ V I) as (s' & Vv' & _).
    destruct (C _ _ _ _ Vv Vv' Ei) as [_ ->]. exact J.
Qed.

Lemma dsource_neq x y : dsource_beq x y = false -> x <> y.
Proof. intros H E. subst. destruct y; discriminate. Qed.
Lemma rename_sound primops root s m n new edits : vla primops root = Ok s -> coherent primops root -> identified root ->
  parents root = Ok m -> node_of root n -> rename root s m n new = value edits ->
  exists sc o x nd, declaration primops root sc o x nd /\
    ((exists v v', on_variable root n v /\ refers sc o x v' /\ nid v' = nid v) \/ on_name root n nd) /\
    forall e, In e edits <-> e = TEdit (nrange nd) new \/ exists v, refers sc o x v /\ e = TEdit (nrange v) new.
Proof.
  intros H C Id E N R. unfold rename in R. apply tbind_value in R as (d & F & R). apply tbind_value in R as (y & Y & R).
  unfold defAt in Y. destruct (nth_error (v_defs s) d) as [y'|] eqn:Y'; [|discriminate]. injection Y as ->.
  destruct (dsource_beq (df_src y) DS_With) eqn:B1; [discriminate|]. destruct (dsource_beq (df_src y) DS_Builtin) eqn:B2; [discriminate|].
  apply dsource_neq in B1, B2.
  destruct (found_declared _ _ _ _ _ _ _ H Id E N F Y' B1 B2) as (sc & o & x & nd & D & S & On & U).
  destruct (uses_nodes _ _ _ _ _ _ C (proj1 D) U) as (vs & Ev & _ & Iv). rewrite Ev, S in R. simpl in R. injection R as <-.
  exists sc, o, x, nd. split; auto. split; auto. intros e. rewrite in_app_iff, in_map_iff. simpl. split.
  - intros [(v & <- & I)|[<-|[]]]; [right|now left]. exists v. split; auto. now apply Iv.
  - intros [->|(v & I & ->)]; [auto|left]. exists v. split; auto. now apply Iv.
Qed.

(** ** renaming works on variables *)
Lemma chain_below root n l : chain root n l -> forall p, In p l -> node_of p n.
Proof.
  induction 1 as [|n q l I C IH]; intros p J; [destruct J as [<-|[]]; constructor|].
  destruct J as [<-|J]; [constructor|]. eapply node_of_trans; [apply IH; exact J|]. econstructor; [exact I|constructor].
Qed.
Lemma static_below a x v : staticName a = Some x -> node_of a v -> kind_of v <> NK_ExprVar.
Proof.
  intros S N. destruct a; try discriminate. destruct a; try discriminate; simpl in S.
  - inversion N; subst; [discriminate|]. destruct H as [<-|[]]. inversion H0; subst; [discriminate|]. contradiction.
  - destruct a; try discriminate. cbn [parts_literal] in S.
    match type of S with match ?l with _ => _ end = _ => destruct l as [|[y|] [|]]; try discriminate end.
    inversion N; subst; [discriminate|]. destruct H as [<-|[]]. inversion H0; subst; [discriminate|].
    destruct H as [<-|[]]. inversion H1; subst; [discriminate|]. contradiction.
Qed.
(** the cursor is on the variable or on its identifier, which has no other parent *)
Definition in_var (root n v : node) : Prop :=
  n = v \/ (In n (present (children v)) /\ forall p, node_of root p -> In n (present (children p)) -> p = v).
Lemma findVar_var root m n v i r j q x : identified root -> parents root = Ok m -> node_of root v ->
  v = NVar i r (NIdent j q x) -> in_var root n v -> findVar m n = value (Some v).
Proof.
  intros Id E Nv Ev On.
  assert (N : node_of root n).
  { destruct On as [->|[I _]]; auto. eapply node_of_trans; [exact Nv|]. econstructor; [exact I|constructor]. }
  assert (Ch : forall l, chain root n l -> exists l', l = v :: l' \/ (l = n :: v :: l' /\ kind_of n = NK_Identifier)).
  { intros l C. destruct On as [->|[I U]].
    - inversion C; subst; eauto.
    - rewrite Ev in I. simpl in I. destruct I as [<-|[]].
      inversion C; subst.
      + exfalso. apply node_of_size in Nv. simpl in Nv. lia.
      + assert (p = NVar i r (NIdent j q x)) by (apply U; auto; eapply chain_node; eauto). subst p.
        match goal with Z : chain _ (NVar _ _ _) _ |- _ => inversion Z; subst; eauto end. }
  assert (Uv : upTo m n NK_ExprVar = Ok (Some v)).
  { destruct (up_ok root m (fun k' => nodekind_beq k' NK_ExprVar) n Id E N) as (l & C & R). unfold upTo. rewrite R.
    destruct (Ch _ C) as (l' & [->|[-> K]]); simpl; [|rewrite K; simpl]; rewrite Ev; reflexivity. }
  assert (An : forall a y, upTo m n NK_AttrName = Ok (Some a) -> staticName a = Some y -> False).
  { intros a y U S. destruct (upTo_nearest _ _ _ _ _ Id E N U) as (l & C & F). apply find_kind in F as [K I].
    assert (Ia : node_of v a \/ node_of a v).
    { destruct (Ch _ C) as (l' & [->|[-> Kn]]).
      - destruct I as [<-|I]; [left; constructor|right].
        inversion C; subst; [contradiction|]. eapply node_of_trans; [eapply chain_below; eauto|]. econstructor; [eassumption|constructor].
      - destruct I as [<-|[<-|I]]; [congruence|left; constructor|right].
        inversion C; subst. match goal with Z : chain root _ (_ :: l') |- _ => inversion Z; subst; [contradiction|] end.
        eapply node_of_trans; [eapply chain_below; eauto|]. econstructor; [eassumption|constructor]. }
    destruct Ia as [Ia|Ia].
    - subst v. inversion Ia; subst; [discriminate|]. match goal with Z : In _ (present _) |- _ => destruct Z as [<-|[]] end.
      match goal with Z : node_of (NIdent _ _ _) _ |- _ => inversion Z; subst; [discriminate|contradiction] end.
    - apply (static_below _ _ _ S Ia). now rewrite Ev. }
  unfold findVar. destruct (up_ok root m (fun k' => nodekind_beq k' NK_Inherit) n Id E N) as (l1 & _ & R1).
  destruct (up_ok root m (fun k' => nodekind_beq k' NK_AttrName) n Id E N) as (l2 & _ & R2).
  assert (Fi : findInheritVar m n = value None).
  { unfold findInheritVar, upTo at 1. rewrite R1. destruct (find _ l1) as [inh|]; [|reflexivity]. cbn [bind].
    destruct inh; try reflexivity. unfold upTo at 1. rewrite R2. cbn [bind]. destruct (find _ l2) as [a|] eqn:F2; [|reflexivity].
    destruct e; [reflexivity|]. destruct (staticName a) as [y|] eqn:S; [|reflexivity]. exfalso. apply (An a y); auto.
  }
  rewrite Fi. cbn [tbind bind value]. unfold tbind, bind, value. now rewrite Uv.
Qed.
Lemma visit_layer_names primops root sc v x who names t nd role : visit (prelude primops) root sc v ->
  bound sc x (Binds who names :: t) -> In (x, (nd, role)) names -> role <> DS_Builtin /\ role <> DS_With.
Proof.
  intros V B I. destruct (bound_split _ _ _ B) as (pre & l & t' & -> & Et & _). injection Et as <- <-.
  destruct (visit_grow _ _ _ _ V) as [p0 Ep].
  assert (Z : exists p1, Binds who names :: t = p1 ++ prelude primops).
  { destruct (exists_last (l := Binds who names :: t)) as (q & z & Ez); [discriminate|]. exists q. rewrite Ez in *.
    unfold prelude in *. rewrite app_assoc in Ep. apply app_inj_tail in Ep as [_ ->]. reflexivity. }
  destruct Z as [p1 Z].
  destruct (visit_layer _ _ _ _ V (Binds who names) t pre p1 eq_refl Z) as [Y|(o & n1 & Vo & Oo & _)].
  - subst p1. discriminate Z.
  - eapply opens_roles; eauto.
Qed.
Lemma rename_var primops root s m n v i r j q x sc who names t new :
  vla primops root = Ok s -> coherent primops root -> identified root -> parents root = Ok m ->
  node_of root v -> v = NVar i r (NIdent j q x) -> in_var root n v ->
  visit (prelude primops) root sc v -> bound sc x (Binds who names :: t) ->
  exists edits o nd, rename root s m n new = value edits /\ declaration primops root t o x nd /\ refers t o x v /\
    forall e, In e edits <-> e = TEdit (nrange nd) new \/ exists v, refers t o x v /\ e = TEdit (nrange v) new.
Proof.
  intros H C Id E Nv Ev On V B. pose proof (findVar_var _ _ _ _ _ _ _ _ _ Id E Nv Ev On) as Fv.
  assert (O : occurs_at primops root sc v x) by (split; auto; rewrite Ev; split; reflexivity).
  destruct (query_res _ _ _ _ _ _ H C O) as (rs & Q & Rk).
  destruct rs as [|d|d]; simpl in Rk.
  1,2: destruct Rk as [Rk _]; exfalso; eapply bound_unbound; eauto.
  destruct Rk as (l' & t' & B' & y & Y & M). pose proof (bound_fun _ _ _ _ B B') as Eq. injection Eq as <- <-.
  destruct M as (nd & S & I).
  assert (Nb : df_src y <> DS_Builtin /\ df_src y <> DS_With).
  { exact (visit_layer_names _ _ _ _ _ _ _ _ _ _ V B I). }
  destruct (var_declared _ _ _ _ _ _ H Q Y (proj1 Nb)) as (sc1 & o & x1 & nd1 & D & S1 & (v1 & R1 & Ei) & U).
  assert (v1 = v /\ x1 = x /\ sc1 = t).
  { pose proof R1 as (w2 & n2 & s2 & O2 & V2 & Iv2 & B2).
    assert (V2' : visit (prelude primops) root s2 v1) by (eapply visit_trans; [exact (proj1 D)|exact V2]).
    destruct (C _ _ _ _ V2' V Ei) as [-> ->]. split; auto.
    assert (x1 = x) by (destruct Iv2 as [_ <-]; rewrite Ev; reflexivity). subst x1. split; auto.
    pose proof (bound_fun _ _ _ _ B B2) as Z. now injection Z. }
  destruct H0 as (-> & -> & ->).
  destruct (uses_nodes _ _ _ _ _ _ C (proj1 D) U) as (vs & Eu & _ & Iv).
  exists (map (fun v => TEdit (nrange v) new) vs ++ [TEdit (nrange nd1) new]), o, nd1.
  split; [|split; [exact D|split; [exact R1|]]].
  - unfold rename, findDefinition. rewrite Fv. unfold tbind at 2. cbn [bind value]. unfold findVarDefinition. rewrite Q.
    unfold value at 1. unfold tbind. cbn [bind]. unfold defAt. unfold defn in Y. rewrite Y. unfold value. cbn [bind].
    destruct (dsource_beq (df_src y) DS_With) eqn:B1; [apply internal_dsource_dec_bl in B1; now elim (proj2 Nb)|].
    destruct (dsource_beq (df_src y) DS_Builtin) eqn:B2; [apply internal_dsource_dec_bl in B2; now elim (proj1 Nb)|].
    rewrite Eu, S1. reflexivity.
  - intros e. rewrite in_app_iff, in_map_iff. simpl. split.
    + intros [(w & <- & Iw)|[<-|[]]]; [right|now left]. exists w. split; auto. now apply Iv.
    + intros [->|(w & Iw & ->)]; [auto|left]. exists w. split; auto. now apply Iv.
Qed.
