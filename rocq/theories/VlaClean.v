(** The reports of the variable analysis point inside the document, and their fixes apply cleanly. *)
From Verif Require Import Base Diag LexModel LexSpec AstModel SemaModel PSupModel ParseModel ParseSpec ParseInv ParseTree ParseProofs ParseFacts VlaModel VlaSpec VlaPost VlaBase VlaProofs VlaDfs IdTree IdProofs FixSpec.

Section Clean.
Variables (src : bytes) (root : node) (ds : list diag).
Hypothesis HP : parse src = Ok (Some root, ds).
Variable primops : list (bytes * bool).

Definition rin (n : node) : Prop := range_in src (nrange n).
Definition clean (s : vst) : Prop :=
  Forall (ParseInv.dok src) (v_diags s) /\ Forall (fun d => opt rin (df_syn d)) (v_defs s).
Definition keeps {A} (m : V A) : Prop := forall s a s', clean s -> m s = Ok (a, s') -> clean s'.

(** ** rules *)
Lemma k_ret {A} (a : A) : keeps (vret a).
Proof. intros s a' s' C H. now injection H as _ <-. Qed.
Lemma k_crash {A} w : keeps (@vcrash A w).
Proof. intros s a' s' C H. discriminate. Qed.
Lemma k_bind {A B} (m : V A) (f : A -> V B) : keeps m -> (forall a, keeps (f a)) -> keeps (vbind m f).
Proof. intros K F s a s' C H. apply vbind_ok in H as (x & s1 & H1 & H). exact (F x _ _ _ (K _ _ _ C H1) H). Qed.
Lemma k_lift {A B} (r : res A) (f : A -> V B) : (forall a, r = Ok a -> keeps (f a)) -> keeps (vbind (vlift r) f).
Proof. intros F s a s' C H. apply vbind_ok in H as (x & s1 & H1 & H). apply vlift_ok in H1 as [E ->]. exact (F x E _ _ _ C H). Qed.
Lemma k_lift0 {A} (r : res A) : keeps (vlift r).
Proof. intros s a s' C H. apply vlift_ok in H as [_ ->]. exact C. Qed.
Lemma k_getDef {B} d (f : vdef -> V B) : (forall y, opt rin (df_syn y) -> keeps (f y)) -> keeps (vbind (getDef d) f).
Proof.
  intros F s a s' C H. apply vbind_ok in H as (y & s1 & H1 & H). unfold getDef in H1.
  destruct (nth_error (v_defs s) d) as [z|] eqn:E; [|discriminate]. injection H1 as -> ->.
  refine (F y _ _ _ _ C H). destruct C as [_ C]. rewrite Forall_forall in C. apply C. eapply nth_error_In; eauto.
Qed.
Lemma k_vfor {A} (f : A -> V unit) l : (forall x, In x l -> keeps (f x)) -> keeps (vfor f l).
Proof.
  induction l as [|x l IH]; intros H; [apply k_ret|]. cbn [vfor].
  apply (k_bind (f x) (fun _ => vfor f l)); [apply H; now left|]. intros _. apply IH. intros y I. apply H. now right.
Qed.
Lemma k_diag d : ParseInv.dok src d -> keeps (vdiag d).
Proof. intros D s a s' [C1 C2] H. injection H as _ <-. split; [constructor; auto|exact C2]. Qed.
Lemma k_newDef syn so : opt rin syn -> keeps (newDef syn so).
Proof. intros D s a s' [C1 C2] H. injection H as _ <-. split; [exact C1|]. cbn. apply Forall_app. auto. Qed.
Lemma addUse_syn u : forall l d, Forall (fun d => opt rin (df_syn d)) l -> Forall (fun d => opt rin (df_syn d)) (addUse d u l).
Proof. induction l as [|x l IH]; intros [|d] F; cbn [addUse]; auto; inversion F; subst; constructor; auto. Qed.
Lemma k_usedBy d u : keeps (usedBy d u).
Proof. intros s a s' [C1 C2] H. injection H as _ <-. split; [exact C1|]. cbn. now apply addUse_syn. Qed.
Lemma k_setToDef n d : keeps (setToDef n d).
Proof. intros s a s' C H. now injection H as _ <-. Qed.
Lemma k_setWithDef n d : keeps (setWithDef n d).
Proof. intros s a s' C H. now injection H as _ <-. Qed.
Lemma k_insEnv n d : keeps (insEnv n d).
Proof. intros s a s' C H. now injection H as _ <-. Qed.
Lemma k_insRes n d : keeps (insRes n d).
Proof. intros s a s' C H. now injection H as _ <-. Qed.
Lemma k_insWs n d : keeps (insWs n d).
Proof. intros s a s' C H. now injection H as _ <-. Qed.
Lemma k_withDef n : keeps (withDef n).
Proof. intros s a s' C H. unfold withDef in H. destruct (nfind _ _); [|discriminate]. now injection H as _ <-. Qed.
Lemma k_hasWithDef n : keeps (hasWithDef n).
Proof. intros s a s' C H. now injection H as _ <-. Qed.
Lemma k_isLive f : keeps (isLive f).
Proof. intros s a s' C H. now injection H as _ <-. Qed.
Ltac kp := repeat (first [apply k_ret | apply k_crash | apply k_usedBy | apply k_setToDef | apply k_setWithDef | apply k_insEnv | apply k_insRes
  | apply k_insWs | apply k_withDef | apply k_hasWithDef | apply k_isLive
  | lazymatch goal with
    | |- keeps (vbind (vlift _) _) => fail
    | |- keeps (vbind (getDef _) _) => apply k_getDef; intros ? ?
    | |- keeps (vbind _ _) => apply k_bind; [|intros ?]
    end]).

(** ** what the nodes are like *)
Definition G (n : node) : Prop := pv root n /\ within root n.
Lemma in_sok n : within root n -> sok src n.
Proof.
  intros W. pose proof (parse_ok src) as H. rewrite HP in H. destruct H as (_ & H & _).
  destruct (H root eq_refl) as ((k & F) & _). eapply within_sok; eauto. apply F.
Qed.
Lemma in_rin n : within root n -> rin n.
Proof. intros W. apply (sok_local src n (in_sok n W)). Qed.
Lemma in_ne n : within root n -> kind_of n <> NK_InterpolableParts -> off (nl n) < off (nr n).
Proof. intros W. apply (sok_local src n (in_sok n W)). Qed.
Lemma in_field n f : within root n -> In f (fields n) -> within root f.
Proof. intros W I. eapply within_trans; [exact W|]. now apply fields_child. Qed.
Lemma in_child n f : within root n -> In f (present (children n)) -> within root f.
Proof. intros W I. eapply in_field; [exact W|]. now apply child_field. Qed.
Lemma G_enters s n s1 m : G n -> In (s1, m) (enters s n) -> G m.
Proof.
  intros [P W] I. split; [eapply pv_enters; eauto|]. destruct (enters_within _ _ _ _ I) as (f & If & Wf).
  eapply within_trans; [|exact Wf]. eapply in_field; eauto.
Qed.
Lemma G_root : G root.
Proof. split; [apply pv_node; constructor|constructor]. Qed.

(** ** reports *)
Notation dok := (dok src).
Lemma d_plain k r : range_in src r -> holes (dmessage k) = 0 -> dok (diag0 k r).
Proof. apply dok_0. Qed.
Lemma d_one k r a : range_in src r -> holes (dmessage k) = 1 -> dok (d_arg a (diag0 k r)).
Proof. apply dok_1. Qed.
Lemma d_tags t d : dok d -> dok (d_tag t d).
Proof. apply dok_tag. Qed.
Lemma d_fixes_ f d : fix_clean src f -> keeps_promise src (d_range d) (f_msg f) (f_edits f) -> dok d -> dok (d_fix f d).
Proof. apply dok_fix. Qed.
Lemma removal n e : within root n -> kind_of n <> NK_InterpolableParts -> mkRemoval (nrange n) = Ok e ->
  e = TEdit (nrange n) [] /\ edit_clean src e.
Proof. intros W K E. apply mkEdit_ok in E. subst. split; [reflexivity|]. split; [now apply in_rin|]. right. now apply in_ne. Qed.
Ltac cut := cbn [f_msg f_edits map]; first [apply keeps_removal; [cbn [marked_titles In]; tauto|reflexivity|reflexivity]
  |apply keeps_longer; [cbn [longer_titles In]; tauto|repeat constructor|reflexivity|cbn; lia]].
Lemma fix1 m e : edit_clean src e -> fix_clean src (Fix_ m [e]).
Proof. intros E. split; [constructor; [exact E|constructor]|constructor; constructor]. Qed.

(** ** the parts *)
Lemma k_addSimple x e so m : opt rin e -> keeps (addSimple x e so m).
Proof. intros R. unfold addSimple. destruct (bfind x m); [apply k_crash|]. apply k_bind; [now apply k_newDef|]. intros. apply k_ret. Qed.
Lemma k_dbAdd x e so ib m : rin e -> keeps (dbAdd primops x e so ib m).
Proof.
  intros R. unfold dbAdd. apply k_bind.
  { destruct (lookupGlobalPrimOpInfo primops x); kp. destruct ib; kp. apply k_diag. apply d_one; [exact R|reflexivity]. }
  intros _. apply k_bind; [|intros _; now apply k_addSimple]. destruct (isConstant x); kp. apply k_diag. apply d_one; [exact R|reflexivity].
Qed.
Lemma k_lookupVar n e : G n -> keeps (lookupVar primops n e).
Proof.
  intros [_ W]. pose proof (in_rin n W) as R. unfold lookupVar. destruct (walk (varName n) e) as [[d|] [|f0 ws]]; kp.
  - destruct (lookupGlobalPrimOpInfo primops (varName n)); kp.
    + apply k_lift. intros ed E. apply mkEdit_ok in E. subst. kp. apply k_diag. apply d_fixes_; [| |now apply d_plain];
        [|apply (keeps_dummy _ _ _ (b "builtins.") Before); [cbn [dummies In]; tauto|split; reflexivity|reflexivity]].
      apply fix1. split; [|left; discriminate]. split; [apply R|]. split; [apply R|]. cbn. lia.
    + apply k_diag. apply d_one; [exact R|reflexivity].
  - apply (k_vfor (fun f => let? d := withDef (synId f) in usedBy d (nid n)) (f0 :: ws)). intros f _. kp.
Qed.
Lemma let_binding n q : within root n -> In q (letBindings n) -> within root q /\ is_bind q.
Proof.
  intros W I. unfold letBindings in I. destruct n; try contradiction. destruct attrs as [a|]; [|contradiction].
  assert (W1 : within root a).
  { eapply in_child; [exact W|]. cbn [children]. rewrite !present_cons, !in_app_iff. cbn. auto. }
  destruct a; try contradiction. destruct body as [bd|]; [|contradiction].
  assert (W2 : within root bd) by (eapply in_child; [exact W1|cbn [children]; rewrite !present_cons, !in_app_iff; cbn; auto]).
  destruct bd; try contradiction.
  split; [eapply in_child; [exact W2|cbn [children]; now rewrite present_some]|].
  destruct (sok_local src _ (in_sok _ W2)) as (_ & _ & [_ F] & _). rewrite Forall_forall in F. auto.
Qed.
Lemma of_child n c : node_of root n -> In c (present (children n)) -> node_of root c.
Proof.
  intros H. generalize root H. clear. induction 1 as [n|n d m I _ IH]; intros Hc; [econstructor; [exact Hc|constructor]|].
  econstructor; [exact I|]. now apply IH.
Qed.
Lemma let_of n q : node_of root n -> In q (letBindings n) -> node_of root q.
Proof.
  intros W I. unfold letBindings in I. destruct n; try contradiction. destruct attrs as [a|]; [|contradiction].
  assert (W1 : node_of root a) by (eapply of_child; [exact W|cbn [children]; rewrite !present_cons, !in_app_iff; cbn; auto]).
  destruct a; try contradiction. destruct body as [bd|]; [|contradiction].
  assert (W2 : node_of root bd) by (eapply of_child; [exact W1|cbn [children]; rewrite !present_cons, !in_app_iff; cbn; auto]).
  destruct bd; try contradiction. eapply of_child; [exact W2|cbn [children]; now rewrite present_some].
Qed.
(** the name of a binding lies in it *)
Lemma name_inside r n q : G n -> bindingAt r (letBindings n) = Some q -> inside r (nrange q).
Proof.
  intros [P _] E. apply find_some in E as [I E].
  assert (N : node_of root n).
  { destruct P as [P|(p & q' & name & E' & _)]; [inversion P; subst; try assumption; destruct I|]. subst n. destruct I. }
  pose proof (let_of n q N I) as Nq. destruct q; try discriminate E.
  match type of E with (match ?pp with _ => _ end = true) => destruct pp; try discriminate E end.
  match type of E with (match ?l with _ => _ end = true) => destruct l as [|first l0]; [discriminate E|] end. apply andb_prop in E as [E1 E2].
  pose proof (C18_nested_partial_proof src root ds HP) as C.
  match type of Nq with node_of root (NBinding _ _ ?pp _ _) =>
    assert (Np : node_of root pp) by (eapply of_child; [exact Nq|left; reflexivity]);
    destruct (C _ pp Nq) as [Ip|(? & ? & ? & ? & ? & X & _)]; [left; reflexivity| |discriminate X] end.
  destruct (C _ first Np) as [If|(? & ? & ? & ? & ? & X & _)]; [left; reflexivity| |discriminate X].
  unfold cur_eqb in E1, E2. rewrite !Bool.andb_true_iff, !Nat.eqb_eq in E1, E2. unfold inside, nl, nr in *. cbn [nrange] in *. lia.
Qed.
Lemma k_emit n m : G n -> keeps (emitEnvLivenessWarning (Frame m (Some n))).
Proof.
  intros Gn. pose proof (proj2 Gn) as W. unfold emitEnvLivenessWarning. apply k_vfor. intros p _. apply k_getDef. intros y Y.
  destruct (dsource_beq (df_src y) DS_LambdaArg); kp. destruct (df_syn y) as [syn|]; kp. destruct (df_uses y); kp.
  apply k_lift. intros k Ek. cbv zeta. assert (D : dok (d_tag Faded (d_arg (fst p) (diag0 k (nrange syn))))).
  { apply d_tags, d_one; [exact Y|]. destruct (df_src y); try discriminate; match goal with H : unusedKind _ = Ok _ |- _ => injection H as <-; reflexivity end. }
  cbn [fr_syn]. destruct (df_src y); try (apply k_diag; exact D).
  destruct (bindingAt (nrange syn) (letBindings n)) as [q|] eqn:E; [|apply k_diag; exact D]. pose proof (name_inside _ n q Gn E) as Iq.
  apply find_some in E as [I _]. destruct (let_binding n q W I) as [Wq Bq].
  apply k_lift. intros ed Ee. destruct (removal q ed Wq) as [-> Ec]; auto; [destruct Bq; congruence|].
  apply k_diag. apply d_fixes_; [now apply fix1|apply keeps_unused; [reflexivity|exact Iq]|exact D].
Qed.
Lemma k_checkBuiltins n : G n -> keeps (checkBuiltins primops n).
Proof.
  intros [_ W]. unfold checkBuiltins. destruct n; kp. destruct path as [p|]; kp. destruct p; kp. destruct names as [|first [|]]; kp.
  destruct desugared; kp. destruct n; kp.
  match goal with W : within root (NSelect _ _ ?e _ _ _ _) |- _ => set (ex := e) in * end.
  destruct (negb _); kp. destruct (staticName first) as [x|]; kp.
  assert (We : within root ex) by (eapply in_child; [exact W|left; reflexivity]).
  destruct (lookupGlobalPrimOpInfo primops x); kp.
  - apply k_lift. intros e1 E1. destruct (removal ex e1 We) as [-> C1]; auto; [discriminate|].
    destruct dot as [dt|].
    + assert (Wd : within root dt) by (eapply in_field; [exact W|]; unfold fields; rewrite ?in_app_iff; cbn [optlist In]; auto).
      destruct (sok_local src _ (in_sok _ W)) as (_ & _ & (_ & Td & _) & Ord). cbn [opt] in Td, Ord.
      intros s a s' C H. vinv H. vinv H0. apply vlift_ok in H1 as [E2 ->]. vinv H0.
      assert (Kd : kind_of dt <> NK_InterpolableParts) by (unfold is_kind in Td; congruence).
      destruct (removal dt _ Wd Kd E2) as [-> C2].
      refine (k_diag _ _ _ _ _ C H). apply d_fixes_; [|cut|apply d_plain; [now apply in_rin|reflexivity]].
      split; [constructor; [exact C1|constructor; [exact C2|constructor]]|].
      constructor; [constructor; [left; exact Ord|constructor]|constructor; constructor].
    + intros s a s' C H. vinv H. vinv H0. refine (k_diag _ _ _ _ _ C H). apply d_fixes_; [now apply fix1|cut|]. apply d_plain; [now apply in_rin|reflexivity].
  - destruct (isBuiltinConstant x); kp. apply k_diag, d_one; [|reflexivity].
    assert (Wp : within root (NAttrPath id0 r0 [first] dots)) by (eapply in_child; [exact W|right; left; reflexivity]).
    apply in_rin. eapply in_child; [exact Wp|left; reflexivity].
Qed.
Lemma key_in i r bd rc st dy p : within root (NAttrs i r bd rc st dy) -> In p st ->
  within root (a_key (snd p)) /\ kind_of (a_key (snd p)) = NK_AttrName.
Proof.
  intros W I. split.
  - eapply in_field; [exact W|]. unfold fields. rewrite !in_app_iff.
    assert (In (a_key (snd p)) (map (fun kv => a_key (snd kv)) st)) by (apply (in_map (fun kv => a_key (snd kv))); exact I). tauto.
  - destruct (sok_local src _ (in_sok _ W)) as (_ & _ & (_ & _ & F & _) & _). rewrite Forall_forall in F. apply (F p I).
Qed.
Lemma k_checkLet i r bd rc st dy : within root (NAttrs i r bd rc st dy) -> keeps (checkLetInheritBuiltins primops st).
Proof.
  intros W. unfold checkLetInheritBuiltins. apply k_vfor. intros p I. destruct (key_in _ _ _ _ _ _ p W I) as [Wk Kk].
  apply k_lift. intros ib _. destruct (negb ib); kp. destruct (lookupGlobalPrimOpInfo primops (fst p)); kp.
  apply k_lift. intros ed E. destruct (removal _ ed Wk) as [-> C]; auto; [congruence|].
  apply k_diag. apply d_fixes_; [now apply fix1|cut|]. apply d_plain; [now apply in_rin|reflexivity].
Qed.
Lemma k_attrDefs so : forall st m, (forall p, In p st -> rin (a_key (snd p))) -> keeps (attrDefs primops st so m).
Proof.
  induction st as [|[x a] st IH]; intros m H; cbn [attrDefs]; [apply k_ret|].
  apply k_lift. intros ib _. apply k_bind; [apply k_dbAdd; apply (H (x, a)); now left|]. intros dm. apply k_bind; [apply k_setToDef|].
  intros _. apply IH. intros p I. apply H. now right.
Qed.
Lemma k_formalDefs ms so : (forall q, In q ms -> within root q) -> forall dd m, keeps (formalDefs primops ms dd so m).
Proof.
  intros H. induction dd as [|[x i] dd IH]; intros m; cbn [formalDefs]; [apply k_ret|].
  destruct (formalId ms i) as [q|] eqn:E; [|apply k_crash].
  assert (R : rin q).
  { unfold formalId in E. destruct (find _ ms) as [f|] eqn:F; [|discriminate]. apply find_some in F as [F _].
    destruct f; try discriminate. match type of E with match ?o with _ => _ end = _ => destruct o as [q'|]; [|discriminate] end. injection E as ->. apply in_rin.
    eapply in_field; [exact (H _ F)|]. unfold fields. rewrite ?in_app_iff. cbn [optlist In]. tauto. }
  apply k_bind; [now apply k_dbAdd|]. intros dm. apply k_bind; [apply k_setToDef|]. intros _. apply IH.
Qed.
Lemma k_lambdaDefs a : within root a -> keeps (lambdaDefs primops a).
Proof.
  intros W. unfold lambdaDefs. destruct a; kp.
  - assert (R : forall q, ident = Some q -> rin q).
    { intros q ->. apply in_rin. eapply in_child; [exact W|left; reflexivity]. }
    destruct ident as [q|]; [|kp]. destruct formals as [f|]; [destruct f; kp|].
    + destruct (bfind _ _); kp. apply k_dbAdd. auto.
    + kp. apply k_dbAdd. auto.
  - destruct formals as [f|]; kp.
    assert (Wf : within root f) by (eapply in_child; [exact W|cbn [children]; rewrite !present_cons; apply in_or_app; right; left; reflexivity]).
    destruct f; kp. apply k_formalDefs. intros q I.
    eapply in_child; [exact Wf|]. cbn [children]. now rewrite present_some.
Qed.
Lemma k_checkRec rc f : (forall kw, rc = Some kw -> within root kw /\ kind_of kw = NK_Misc) -> keeps (checkRec rc f).
Proof.
  intros W. unfold checkRec. destruct f as [f|]; kp. match goal with |- keeps (if ?x then _ else _) => destruct x end; kp.
  destruct rc as [kw|]; kp. destruct (W kw eq_refl) as [Wk K]. apply k_lift. intros ed E.
  destruct (removal kw ed Wk) as [-> C]; auto; [congruence|].
  apply k_diag, d_tags, d_fixes_; [now apply fix1|cut|]. apply d_plain; [now apply in_rin|reflexivity].
Qed.
Lemma k_dfsAttrs {B} go rc st dy e syn so (F : option frame -> V B) :
  (forall p, In p st -> rin (a_key (snd p))) ->
  (forall p e', In p st -> keeps (go (a_value (snd p)) e')) ->
  (forall a e', In a dy -> keeps (go (a_key a) e') /\ keeps (go (a_value a) e')) ->
  (forall m, keeps (F (Some (Frame m (Some syn))))) -> keeps (F None) ->
  keeps (vbind (dfsAttrs primops go rc st dy e syn so) F).
Proof.
  intros K H1 H2 FS FN s a s' C H. apply vbind_ok in H as (o & s1 & H & H'). unfold dfsAttrs in H. destruct (isRec rc).
  - apply vbind_ok in H as (m & s2 & A & H). apply (k_attrDefs so _ _ K) in A; [|exact C].
    apply vbind_ok in H as ([] & s3 & A2 & H). assert (C3 : clean s3).
    { refine (k_vfor _ _ _ _ _ _ A A2). intros p I. now apply H1. }
    apply vbind_ok in H as ([] & s4 & A4 & H). assert (C4 : clean s4).
    { refine (k_vfor _ _ _ _ _ _ C3 A4). intros x I. apply k_bind; [now apply H2|]. intros _. now apply H2. }
    injection H as <- <-. exact (FS m _ _ _ C4 H').
  - apply vbind_ok in H as ([] & s3 & A2 & H). assert (C3 : clean s3).
    { refine (k_vfor _ _ _ _ _ _ C A2). intros p I. now apply H1. }
    apply vbind_ok in H as ([] & s4 & A4 & H). assert (C4 : clean s4).
    { refine (k_vfor _ _ _ _ _ _ C3 A4). intros x I. apply k_bind; [now apply H2|]. intros _. now apply H2. }
    injection H as <- <-. exact (FN _ _ _ C4 H').
Qed.
Lemma k_withStart n kw : within root kw -> keeps (withStart n kw).
Proof. intros W. unfold withStart. kp. destruct a; kp. apply k_newDef. now apply in_rin. Qed.
Lemma removals (l : list node) : (forall m, In m l -> within root m /\ kind_of m <> NK_InterpolableParts) ->
  ForallOrdPairs (fun c d => apart (nrange c) (nrange d)) l ->
  forall msg, fix_clean src (Fix_ msg (map (fun m => TEdit (nrange m) []) l)).
Proof.
  intros W A msg. split; cbn [f_edits].
  - rewrite Forall_forall. intros e I. apply in_map_iff in I as (m & <- & I). destruct (W m I) as [Wm K].
    split; [now apply in_rin|]. right. now apply in_ne.
  - clear W. induction A as [|m l F A IH]; constructor; auto. rewrite Forall_forall in F |- *.
    intros e I. apply in_map_iff in I as (m' & <- & I). exact (F m' I).
Qed.
Lemma fop_app_l {A} (R : A -> A -> Prop) l1 l2 : ForallOrdPairs R (l1 ++ l2) -> ForallOrdPairs R l1.
Proof.
  induction l1 as [|x l1 IH]; intros H; [constructor|]. inversion H; subst. constructor; auto.
  rewrite Forall_forall in *. intros y I. apply H2. apply in_or_app. auto.
Qed.
Lemma isExpr_ne n : is_expr n -> kind_of n <> NK_InterpolableParts.
Proof. intros E K. unfold is_expr in E. rewrite K in E. discriminate. Qed.
Lemma k_withEnd i r kw semi w e : G (NWith i r kw semi w e) -> keeps (withEnd (NWith i r kw semi w e) kw semi w).
Proof.
  intros [P W]. assert (N : node_of root (NWith i r kw semi w e)).
  { destruct P as [P|(p & q & name & E & _)]; [|discriminate]. now inversion P. }
  destruct (C18_siblings_apart_proof src root ds HP) as [A _]. specialize (A _ N).
  assert (EQ : proper (NWith i r kw semi w e) = (kw :: optlist semi ++ optlist w) ++ optlist e).
  { destruct semi, w, e; reflexivity. }
  rewrite EQ in A. apply fop_app_l in A.
  destruct (sok_local src _ (in_sok _ W)) as (_ & _ & (T1 & T2 & T3 & T4) & _).
  assert (Wc : forall m, In m (kw :: optlist semi ++ optlist w) -> within root m).
  { intros m I. eapply in_child; [exact W|]. cbn [children]. rewrite !present_cons, !in_app_iff. cbn [optlist In].
    destruct I as [I|I]; [auto|]. apply in_app_or in I. tauto. }
  assert (Kc : forall m, In m (kw :: optlist semi ++ optlist w) -> kind_of m <> NK_InterpolableParts).
  { intros m [<-|I]; [unfold is_kind in T1; congruence|]. apply in_app_or in I as [I|I].
    - destruct semi as [t|]; [|contradiction]. destruct I as [<-|[]]. cbn in T2. unfold is_kind in T2. congruence.
    - destruct w as [t|]; [|contradiction]. destruct I as [<-|[]]. now apply isExpr_ne. }
  assert (R := fun msg => removals _ (fun m I => conj (Wc m I) (Kc m I)) A msg).
  unfold withEnd. kp. destruct (df_uses _); kp.
  apply k_lift. intros e1 E1. apply mkEdit_ok in E1. subst.
  assert (Rr : rin kw) by (apply in_rin; apply Wc; now left).
  intros s x s' C HH. destruct semi as [t|], w as [u|];
    repeat match goal with
    | X : vbind _ _ _ = Ok _ |- _ => apply vbind_ok in X as (? & ? & ? & X)
    | X : vlift _ _ = Ok _ |- _ => apply vlift_ok in X as [X ->]
    | X : mkRemoval _ = Ok _ |- _ => apply mkEdit_ok in X; subst
    | X : vret _ _ = Ok _ |- _ => unfold vret in X; injection X as <- <-
    end; (refine (k_diag _ _ _ _ _ C HH); apply d_fixes_; [apply R|cut|now apply d_plain]).
Qed.

(** ** the traversal *)
Lemma in_interps m : forall fs : list (bytes + node), In (inr m) fs -> In m (interps fs).
Proof.
  induction fs as [|q fs IH]; intros I; [destruct I|]. destruct q; destruct I as [E|I]; try discriminate; cbn; auto.
  injection E as ->. auto.
Qed.
Lemma k_dfs : forall k n, vsize n <= k -> G n -> forall e, keeps (dfs primops n e).
Proof.
  induction k as [|k IHk]; intros n L Gn e; [destruct n; cbn in L; lia|].
  assert (IH : forall s c, In (s, c) (enters [] n) -> forall e', keeps (dfs primops c e')).
  { intros s c I e'. apply IHk; [apply enters_size in I; lia|]. eapply G_enters; eauto. }
  assert (IC : enters [] n = map (pair []) (somes (children n)) -> forall c, In (Some c) (children n) -> forall e', keeps (dfs primops c e')).
  { intros E c I. apply (IH []). rewrite E. apply in_map. now apply in_somes. }
  clear IHk L. destruct Gn as [P W].
  assert (KA : forall B i r bd rc st dy e0 syn so (F : option frame -> V B), within root (NAttrs i r bd rc st dy) ->
    (forall p, In p st -> exists s, In (s, a_value (snd p)) (enters [] n)) ->
    (forall a, In a dy -> exists s, In (s, a_key a) (enters [] n) /\ In (s, a_value a) (enters [] n)) ->
    (forall m, keeps (F (Some (Frame m (Some syn))))) -> keeps (F None) ->
    keeps (vbind (dfsAttrs primops (fun m e' => dfs primops m e') rc st dy e0 syn so) F)).
  { intros B i r bd rc st dy e0 syn so F Wa I1 I2 FS FN. apply k_dfsAttrs; auto.
    - intros p I. apply in_rin. eapply key_in; eauto.
    - intros p e' I. destruct (I1 p I) as [s J]. eapply IH; eauto.
    - intros a e' I. destruct (I2 a I) as (s & J1 & J2). split; eapply IH; eauto. }
  assert (SET : forall out inn st dy, (forall p, In p st -> exists s, In (s, a_value (snd p)) (in_set out inn st dy)) /\
    (forall a, In a dy -> exists s, In (s, a_key a) (in_set out inn st dy) /\ In (s, a_value a) (in_set out inn st dy))).
  { intros out inn st dy. unfold in_set. split.
    - intros p I. eexists. apply in_or_app. left. apply in_map_iff. exists p. split; [reflexivity|exact I].
    - intros a I. exists inn. split; apply in_or_app; right; apply in_flat_map; exists a; cbn; auto. }
  destruct n; cbn [dfs]; (apply k_bind; [apply k_insEnv|intros _]);
    try solve [specialize (IC eq_refl); cbn [children] in IC; kp;
    repeat match goal with
    | |- keeps (match ?o with Some _ => dfs _ _ _ | None => _ end) => destruct o as [?|] eqn:?; subst; [|apply k_ret]
    | |- keeps (vfor _ _) => apply k_vfor; intros ? ?
    | |- keeps (match ?o with inl _ => _ | inr _ => _ end) => destruct o; [apply k_ret|]
    | |- keeps (dfs _ _ _) => apply IC; cbn [In]; rewrite ?in_app_iff, ?in_map_iff; eauto 10 using in_interps; fail
    | _ => progress kp
    end].
  - apply k_lookupVar. now split.
  - specialize (IC eq_refl). cbn [children] in IC.
    apply k_bind; [|intros _]; apply k_vfor; intros x I; apply IC; apply in_map; apply in_or_app; auto.
  - specialize (IC eq_refl). cbn [children] in IC. apply k_bind.
    + apply k_vfor. intros x I. apply IC. apply in_or_app. left. now apply in_map.
    + intros _. destruct e0 as [x|]; [|apply k_ret]. apply IC. apply in_or_app. right. now left.
  - assert (KR : forall f, keeps (checkRec rc f)).
    { intros f. apply k_checkRec. intros kw ->. split.
      - eapply in_child; [exact W|]. cbn [children]. rewrite !present_cons, !in_app_iff. cbn. auto.
      - destruct (sok_local src _ (in_sok _ W)) as (_ & _ & (_ & T & _) & _). exact T. }
    cbn [enters] in KA. eapply KA; eauto; destruct rc; apply SET.
  - assert (KB : keeps (checkBuiltins primops (NSelect id r n dot path dflt desugared))) by (apply k_checkBuiltins; now split).
    specialize (IC eq_refl). cbn [children] in IC. kp; auto.
    + apply IC. now left.
    + destruct path as [x|]; [|apply k_ret]. apply IC. right. now left.
    + destruct dflt as [x|]; [|apply k_ret]. apply IC. right. right. now left.
  - assert (Ks : forall m, keeps (emitEnvLivenessWarning (Frame m (Some (NLet id r n kwin e0 attrs))))) by (intros m; apply k_emit; split; assumption).
    assert (KX : forall e', keeps (match e0 with Some m => dfs primops m e' | None => vret tt end)).
    { intros e'. destruct e0 as [x|]; [|apply k_ret]. cbn [enters] in IH.
      destruct attrs as [a|]; [destruct a|]; try (eapply IH; left; reflexivity). eapply IH. apply in_or_app. right. left. reflexivity. }
    set (F := fun f : option frame => match f with
       | Some f0 => vbind (match e0 with Some m => dfs primops m (f0 :: e) | None => vret tt end) (fun _ => emitEnvLivenessWarning f0)
       | None => vcrash "let ... in ... attrset must be recursive" end).
    assert (FS : forall m, keeps (F (Some (Frame m (Some (NLet id r n kwin e0 attrs)))))).
    { intros m. cbn [F]. apply k_bind; [apply KX|]. intros _. apply Ks. }
    assert (FN : keeps (F None)) by apply k_crash.
    change (keeps (vbind (match attrs with
      | Some (NAttrs _ _ _ rc st dy) =>
          if negb (isRec rc) then vcrash "let ... in ... attrset must be recursive"
          else vbind (checkLetInheritBuiltins primops st)
             (fun _ : unit => dfsAttrs primops (fun m e' => dfs primops m e') rc st dy e (NLet id r n kwin e0 attrs) DS_Let)
      | None => vret (Some (Frame [] (Some (NLet id r n kwin e0 attrs))))
      | _ => vcrash "not an attribute set" end) F)).
    clearbody F. destruct attrs as [a|].
    2:{ intros s x s' C H. apply vbind_ok in H as (o & s1 & H1 & H). injection H1 as <- <-. exact (FS [] _ _ _ C H). }
    assert (Wa : within root a).
    { eapply in_child; [exact W|]. cbn [children]. rewrite !present_cons, !in_app_iff. cbn. auto. }
    destruct a; try (intros s x s' C H; discriminate H). destruct (negb _); [intros s x s' C H; discriminate H|].
    intros s x s' C H. apply vbind_ok in H as (o & s1 & H1 & H). apply vbind_ok in H1 as ([] & s2 & H2 & H1).
    apply (k_checkLet _ _ _ _ _ _ Wa) in H2; [|exact C].
    match type of H1 with dfsAttrs _ _ ?rc ?st ?dy ?e ?syn ?so _ = _ => refine (KA _ _ _ _ rc st dy e syn so F Wa _ _ FS FN _ _ _ H2 _) end.
    + intros p I. cbn [enters]. match goal with |- context [in_set ?o ?i ?a ?c] => destruct (proj1 (SET o i a c) p I) as [s0 J] end.
      exists s0. apply in_or_app. left. exact J.
    + intros p I. cbn [enters]. match goal with |- context [in_set ?o ?i ?a ?c] => destruct (proj2 (SET o i a c) p I) as (s0 & J1 & J2) end.
      exists s0. split; apply in_or_app; left; [exact J1|exact J2].
    + unfold vbind. rewrite H1. exact H.
  - destruct attrs as [a|]; [|apply k_ret].
    assert (Wa : within root a).
    { eapply in_child; [exact W|]. cbn [children]. rewrite !present_cons, !in_app_iff. cbn. auto. }
    destruct a; try apply k_crash.
    assert (KR : forall f, keeps (checkRec rc f)).
    { intros f. apply k_checkRec. intros kw ->. split.
      - eapply in_child; [exact Wa|]. cbn [children]. rewrite !present_cons, !in_app_iff. cbn. auto.
      - destruct (sok_local src _ (in_sok _ Wa)) as (_ & _ & (_ & T & _) & _). exact T. }
    cbn [enters] in KA. eapply KA; eauto; destruct rc; apply SET.
  - assert (Wk : within root n) by (eapply in_child; [exact W|left; reflexivity]).
    apply k_bind; [now apply k_withStart|]. intros _. cbn [enters] in IH. apply k_bind.
    { destruct w as [x|]; [|apply k_ret]. eapply IH. apply in_or_app. left. left. reflexivity. }
    intros _. apply k_bind; [|intros _; apply k_withEnd; now split].
    destruct e0 as [x|]; [|apply k_ret]. eapply IH. apply in_or_app. right. left. reflexivity.
  - specialize (IC eq_refl). cbn [children] in IC. destruct ell as [x|]; [apply IC; now left|].
    apply k_bind; [destruct ident as [x|]; [|apply k_ret]; apply IC; now left|]. intros _.
    destruct dflt as [x|]; [|apply k_ret]. apply IC. right. now left.
  - destruct body as [bd|]; [|apply k_ret]. destruct arg as [a|]; [|apply k_crash].
    assert (Wa : within root a) by (eapply in_child; [exact W|left; reflexivity]).
    apply k_bind; [now apply k_lambdaDefs|]. intros m. cbn [enters] in IH. apply k_bind.
    { destruct a; kp. destruct formals as [f|]; kp. destruct f; kp. apply k_vfor. intros q I. destruct q; kp. destruct dflt as [d|]; kp.
      eapply IH. apply in_or_app. left. apply in_map. unfold defaults. apply in_flat_map. eexists. split; [exact I|]. now left. }
    intros _. apply k_bind; [|intros _; apply k_emit; split; assumption]. eapply IH. apply in_or_app. right. now left.
Qed.

Lemma k_builtinDefs : forall xs m, keeps (builtinDefs xs m).
Proof. induction xs as [|x xs IH]; intros m; cbn [builtinDefs]; [apply k_ret|]. apply k_bind; [now apply k_addSimple|]. intros. apply IH. Qed.
Theorem vla_clean s : vla primops root = Ok s -> Forall (ParseInv.dok src) (v_diags s).
Proof.
  unfold vla, runOnAST. intros H. match type of H with match ?x with _ => _ end = _ => destruct x as [[[] s0]| |] eqn:E; try discriminate end. injection H as ->.
  assert (K : keeps (vbind (builtinDefs (builtinNames primops) []) (fun m => dfs primops root [Frame m None]))).
  { apply k_bind; [apply k_builtinDefs|]. intros m. eapply k_dfs; [apply le_n|apply G_root]. }
  refine (proj1 (K _ _ _ _ E)). split; constructor.
Qed.
End Clean.
