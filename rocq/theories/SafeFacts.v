(** Proofs of the theorems stated in SafeProps. *)
From Verif Require Import Base Diag LexModel LexSpec AstModel PSupModel SemaModel SemaSpec ParseModel ParseSpec NavModel NavSpec NavProofs NavFacts VlaModel VlaSpec ActModel BindModel RefModel RefFacts SafeProofs SafeRef.

Lemma C76_bindings_proof : forall src root ds m n,
  parse src = Ok (Some root, ds) -> parents root = Ok m -> node_of root n ->
  (exists o, convertToInheritAt src m n = Ok o /\ forall e, o = Some e -> range_in src (e_range e)) /\
  (exists o, inheritToBindingAt src m n = Ok o /\ forall e, o = Some e -> range_in src (e_range e)) /\
  (exists o, flattenAttrsAt src m n = Ok o /\ forall e, o = Some e -> range_in src (e_range e)) /\
  (exists l, packAttrsAt src m n = Ok l /\ forall e, In e l -> range_in src (e_range e)).
Proof.
  intros src root ds m n HP HM N. assert (U := fun k => s_up _ _ _ HP _ HM n k N). split; [|split; [|split]].
  - destruct (U NK_Binding) as (o & E & H). unfold convertToInheritAt. rewrite E. cbn [bind]. eexists. split; [reflexivity|].
    destruct o as [x|]; [|discriminate]. exact (s_toInherit _ _ _ HP x (good_node _ _ (H _ eq_refl))).
  - destruct (U NK_Inherit) as (o & E & H). unfold inheritToBindingAt. rewrite E. cbn [bind]. destruct o as [x|]; [|exists None; split; [reflexivity|discriminate]].
    exact (s_toBinding _ _ _ HP x (good_node _ _ (H _ eq_refl))).
  - destruct (U NK_Binding) as (o & E & H). unfold flattenAttrsAt. rewrite E. cbn [bind]. destruct o as [x|]; [|exists None; split; [reflexivity|discriminate]].
    exact (s_flatten _ _ _ HP x (good_node _ _ (H _ eq_refl))).
  - destruct (U NK_Binding) as (o & E & H). unfold packAttrsAt. rewrite E. cbn [bind].
    assert (Z : exists l : list tedit, Ok [] = Ok l /\ forall e, In e l -> range_in src (e_range e)) by (exists []; split; [reflexivity|intros e []]).
    destruct o as [x|]; [|exact Z]. specialize (H _ eq_refl). destruct (pquery m x) as [bs|] eqn:Q; [|exact Z].
    assert (Nb := s_query _ _ _ HP _ HM _ _ H Q). destruct (pquery m bs) as [a|] eqn:Q2; [|exact Z]. assert (Na := s_query _ _ _ HP _ HM _ _ Nb Q2).
    destruct (s_pack _ _ _ HP x bs a (good_node _ _ H) (good_node _ _ Nb) (good_node _ _ Na)) as (l & El & F). exists l. split; [exact El|].
    intros e I. rewrite Forall_forall in F. exact (F e I).
Qed.

Lemma C76_strings_proof : forall src root ds m n,
  parse src = Ok (Some root, ds) -> parents root = Ok m -> node_of root n ->
  (exists o, stringAt m n = Ok o /\
     forall str, o = Some str -> exists p, rewriteString src str = Ok p /\ forall r t, p = Some (r, t) -> range_in src r) /\
  (exists o, attrNameAt m n = Ok o /\ forall a r t, o = Some a -> attrNameAction a = Some (r, t) -> range_in src r).
Proof.
  intros src root ds m n HP HM N. assert (U := fun k => s_up _ _ _ HP _ HM n k N). split.
  - destruct (U NK_ExprString) as (o & E & H). unfold stringAt. rewrite E. cbn [bind]. destruct o as [x|]; [|exists None; split; [reflexivity|discriminate]].
    specialize (H _ eq_refl). destruct (s_up _ _ _ HP _ HM x NK_AttrName H) as (o2 & E2 & H2). rewrite E2. cbn [bind].
    eexists. split; [reflexivity|]. intros str Es. destruct o2; [discriminate|]. injection Es as <-. exact (s_string _ _ _ HP x (good_node _ _ H)).
  - destruct (U NK_AttrName) as (o & E & H). unfold attrNameAt. exists o. split; [exact E|]. intros a r t -> A.
    assert (R := good_range _ _ _ HP a (good_node _ _ (H _ eq_refl))). unfold attrNameAction in A. destruct a; try discriminate.
    assert (X : r = nrange (NAttrName id r0 a)).
    { repeat match type of A with context [match ?x with _ => _ end] => destruct x; try discriminate end; injection A as <- _; reflexivity. }
    rewrite X. exact R.
Qed.

Lemma C76_analysis_proof : forall src root ds primops s m file n,
  parse src = Ok (Some root, ds) -> vla primops root = Ok s -> parents root = Ok m -> node_of root n ->
  (exists o, withToLet root s m src n = Ok o /\ forall e, o = Some e -> range_in src (e_range e)) /\
  (exists o, extractToFile s m src file n = Ok o /\ forall t e, o = Some (t, e) -> range_in src (e_range e)) /\
  (exists o, addToFormals s m n = Ok o /\ forall pos t, o = Some (pos, t) ->
     pos <= List.length src \/ exists f, node_of root f /\ kind_of f = NK_Formals /\ children f = [] /\ pos = S (off (nl f))).
Proof.
  intros src root ds primops s m file n HP HV HM N. split; [|split].
  - exact (s_withToLet _ _ _ _ _ _ HP HV HM n N).
  - exact (s_extract _ _ _ _ _ _ HP HV HM file n N).
  - exact (s_addToFormals _ _ _ _ _ HP HM n N).
Qed.
