(** The code actions that use the variable analysis end normally on every document. *)
From Verif Require Import Base Diag LexModel LexSpec AstModel SemaModel PSupModel ParseModel ParseSpec ParseFacts ActModel NavModel NavSpec NavProofs NavFacts
  VlaModel VlaSpec VlaPost VlaBase VlaProofs VlaThms IdProofs IdFacts RefModel RefSpec RefProofs RefWith SafeProofs.
From Coq Require Import Lia.

Section Doc.
Variables (src : bytes) (root : node) (ds : list diag) (primops : list (bytes * bool)) (s : vst) (pm : pmap).
Hypothesis HP : parse src = Ok (Some root, ds).
Hypothesis HV : vla primops root = Ok s.
Hypothesis HM : parents root = Ok pm.
Let C : coherent primops root := parse_coherent src root ds primops HP.
Let M : marked primops root := parse_marked src root ds primops HP.

Lemma s_kwDef kw : fine (fun o => forall y, o = Some y -> exists d, toDef s kw = Some d /\ nth_error (v_defs s) d = Some y) (kwDef s kw).
Proof.
  unfold kwDef. destruct (toDef s kw) as [d|] eqn:T; [|apply fine_ok; discriminate].
  destruct (toDef_ok _ _ _ _ _ HV T) as (y & nd & Y & _). rewrite Y. apply fine_ok. intros y' [= <-]. eauto.
Qed.
Lemma s_withUses i r kw semi we e d y : node_of root (NWith i r kw semi we e) -> toDef s kw = Some d -> nth_error (v_defs s) d = Some y ->
  fine any (useNodes root (df_uses y)).
Proof.
  intros N T Y. destruct (kw_def _ _ _ _ _ _ _ _ _ _ _ HV C M N T Y) as (sc & V & U).
  destruct (useNodes_ok primops root (df_uses y) C) as (vs & E & _).
  - intros u I. apply U in I as (v & (x & s' & pre & Vv & _) & E). exists s', v. split; [eapply visit_trans; eassumption|exact E].
  - exists vs. split; [exact E|exact I].
Qed.
Lemma s_withToLet n : node_of root n -> fine (edits_in src) (withToLet root s pm src n).
Proof.
  intros N. unfold withToLet. eapply fine_bind; [exact (s_up _ _ _ HP _ HM n NK_ExprWith N)|]. cbv beta. intros [w|] W; [|apply fine_ok; discriminate].
  specialize (W _ eq_refl). destruct w; try (apply fine_ok; discriminate).
  assert (G := good_node root _ W). assert (R := good_range _ _ _ HP _ G).
  destruct (negb _); [apply fine_ok; discriminate|].
  eapply (fine_bind _ _ any).
  { unfold hasNestedWithScope. eapply fine_bind; [apply s_kwDef|]. intros [y|] Y; [|apply fine_ok; exact I].
    destruct (Y _ eq_refl) as (d & T & Yd). eapply fine_bind; [eapply s_withUses; eassumption|]. intros vs _. apply fine_ok. exact I. }
  intros nested _. destruct nested; [apply fine_ok; discriminate|].
  eapply (fine_bind _ _ any).
  { unfold collectWithVariables. eapply fine_bind; [apply s_kwDef|]. intros [y|] Y; [|apply fine_ok; exact I].
    destruct (Y _ eq_refl) as (d & T & Yd). eapply fine_bind; [eapply s_withUses; eassumption|]. intros vs _. apply fine_ok. exact I. }
  intros names _. destruct names as [|nm names]; [apply fine_ok; discriminate|].
  eapply (fine_bind _ _ any).
  { unfold generateLetInherit. 
    match goal with |- fine any (match ?a with _ => _ end) => destruct a as [we|] eqn:Ew end; [|apply fine_ok; exact I].
    match goal with |- fine any (match ?a with _ => _ end) => destruct a as [we2|] eqn:Ew2 end; [|apply fine_ok; exact I]. subst.
    eapply fine_bind; [apply (good_src _ _ _ HP); eapply good_child; [exact G|cbn; auto]|]. intros t1 _.
    eapply fine_bind; [apply (good_src _ _ _ HP); eapply good_child; [exact G|cbn; auto 6]|]. intros t2 _. apply fine_ok. exact I. }
  intros text _. destruct text; apply fine_ok; [discriminate|]. intros ed [= <-]. exact R.
Qed.

Lemma s_freeVar top n acc : fine any (freeVar s top n acc).
Proof.
  unfold freeVar. destruct acc as [names flag]. destruct (nodekind_beq _ _); [|apply fine_ok; exact I].
  destruct (query s n) as [[|d|d]|] eqn:Q; try (apply fine_ok; exact I).
  pose proof HV as H'. apply vla_start in H' as (s1 & e & _ & _ & _ & _ & Er & _ & _ & _ & P & _).
  destruct (po_resuse _ _ _ _ _ _ P _ _ Q) as [Z|(y' & Y' & Nw & _)]; [rewrite Er in Z; discriminate|].
  unfold defn in Y'. rewrite Y'. destruct (dsource_beq _ _); [apply fine_ok; exact I|]. destruct (df_syn y'); [|apply fine_ok; exact I].
  destruct (isInsideNode _ _); apply fine_ok; exact I.
Qed.
Lemma s_freeVars top k : forall n acc, nsize n <= k -> fine any (freeVars s k top n acc).
Proof.
  induction k as [|k IH]; intros n acc L; [pose proof (nsize_pos n); lia|]. cbn [freeVars].
  assert (F : forall c, In (Some c) (children n) -> nsize c <= k) by (intros c I; apply child_size in I; lia).
  assert (A := s_freeVar top n acc). revert A F. generalize (freeVar s top n acc). generalize (children n).
  induction l as [|c l IHl]; intros r A F; cbn [fold_left]; [exact A|]. apply IHl; [|intros c' J; apply F; now right].
  destruct A as (a & -> & _). cbn [bind]. destruct c as [c|]; [|apply fine_ok; exact I]. apply IH. apply F. now left.
Qed.
Lemma s_extractable n top : node_of root n -> findExtractableExpr pm n = Some top -> node_of root top.
Proof.
  intros N E. unfold findExtractableExpr in E. destruct (isExtractable n); [now injection E as <-|].
  destruct (_ || _); [|discriminate]. destruct (pquery pm n) as [p|] eqn:P; [|discriminate]. destruct (nodekind_beq _ _); [|discriminate].
  assert (Np := s_query _ _ _ HP _ HM _ _ N P).
  destruct (pquery pm p) as [q|] eqn:Q; [|discriminate]. assert (Nq := s_query _ _ _ HP _ HM _ _ Np Q).
  destruct q; try discriminate. destruct value as [v|]; [|discriminate]. destruct (isExtractable v); [|discriminate]. injection E as <-.
  eapply node_of_trans; [exact Nq|]. econstructor; [apply present_in; cbn; auto|constructor].
Qed.
Lemma s_extract file n : node_of root n -> fine (fun o => forall t e, o = Some (t, e) -> edit_in src e) (extractToFile s pm src file n).
Proof.
  intros N. unfold extractToFile. destruct (findExtractableExpr pm n) as [top|] eqn:E; [|apply fine_ok; discriminate].
  assert (G := good_node root _ (s_extractable _ _ N E)). assert (R := good_range _ _ _ HP _ G).
  eapply fine_bind; [apply (good_src _ _ _ HP); exact G|]. intros text _. destruct text; [apply fine_ok; discriminate|].
  eapply fine_bind; [apply s_freeVars; apply le_n|]. intros fv _. apply fine_ok. intros t e [= _ <-]. exact R.
Qed.

Lemma good_points m : good root m -> off (nl m) <= List.length src /\ off (nr m) <= List.length src.
Proof.
  intros G. destruct (good_range _ _ _ HP _ G) as ((p1 & q1 & E1 & (L1 & _)) & (p2 & q2 & E2 & (L2 & _)) & _). unfold nl, nr.
  split; [rewrite E1|rewrite E2]; rewrite app_length; lia.
Qed.
Lemma s_insertion i r ms table x pos text : good root (NFormals i r ms table) -> formalsInsertion (NFormals i r ms table) ms x = Some (pos, text) ->
  pos <= List.length src \/ ms = [] /\ pos = S (off (lcur r)).
Proof.
  intros G E. unfold formalsInsertion in E. assert (Gm : forall f, In f ms -> good root f).
  { intros f I. eapply good_child; [exact G|]. cbn. now apply in_map. }
  destruct (rev ms) as [|last before] eqn:Er.
  - right. apply (f_equal (@rev node)) in Er. rewrite rev_involutive in Er. split; [exact Er|]. now injection E as <- _.
  - left. assert (Il : In last ms) by (apply in_rev; rewrite Er; now left).
    assert (Ib : forall f, In f before -> In f ms) by (intros f I; apply in_rev; rewrite Er; now right).
    destruct (isEllipsis last).
    + destruct before as [|f0 before]; [injection E as <- _; apply good_points; auto|].
      destruct (find _ _) as [f|] eqn:F; [|discriminate]. injection E as <- _. apply find_some in F as [F _]. apply good_points; auto.
    + injection E as <- _. apply good_points; auto.
Qed.
Lemma s_addToFormals n : node_of root n ->
  fine (fun o => forall pos t, o = Some (pos, t) -> pos <= List.length src \/ exists m, node_of root m /\ kind_of m = NK_Formals /\ children m = [] /\ pos = S (off (nl m)))
    (addToFormals s pm n).
Proof.
  intros N. unfold addToFormals. eapply fine_bind; [exact (s_up _ _ _ HP _ HM n NK_ExprVar N)|]. cbv beta. intros [v|] _; [|apply fine_ok; discriminate].
  destruct (query s v) as [[|d|d]|]; try (apply fine_ok; discriminate).
  eapply fine_bind; [exact (s_up _ _ _ HP _ HM n NK_ExprLambda N)|]. cbv beta. intros [l|] L; [|apply fine_ok; discriminate]. specialize (L _ eq_refl).
  destruct l; try (apply fine_ok; discriminate). destruct arg as [a|]; [|apply fine_ok; discriminate]. destruct a; try (apply fine_ok; discriminate).
  match goal with |- context [NLambdaArg _ _ _ ?o] => idtac | |- fine _ (match ?o with _ => _ end) => destruct o as [f|] eqn:Ef end; [|apply fine_ok; discriminate].
  destruct f; try (apply fine_ok; discriminate). destruct (bfind _ _); [apply fine_ok; discriminate|]. apply fine_ok. intros pos t E. subst.
  match type of L with node_of _ (NLambda _ _ (Some (NLambdaArg _ _ _ (Some ?F))) _) => assert (Nf : node_of root F) end.
  { eapply node_of_trans; [exact L|]. econstructor; [apply present_in; cbn; auto|]. econstructor; [apply present_in; cbn; auto|constructor]. }
  destruct (s_insertion _ _ _ _ _ _ _ (good_node _ _ Nf) E) as [H|[-> H]]; [now left|]. right. eexists. split; [exact Nf|]. split; [reflexivity|]. split; [reflexivity|exact H].
Qed.
End Doc.
