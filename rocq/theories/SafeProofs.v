(** The code actions end normally on every document, and their edits lie in it. *)
From Verif Require Import Base Diag LexModel LexSpec AstModel SemaModel PSupModel ParseModel ParseSpec ParseFacts ActModel NavModel NavSpec NavProofs NavFacts IdProofs BindModel.
From Coq Require Import Lia.

(** the computation ends normally, with a value satisfying [Q] *)
Definition fine {A} (Q : A -> Prop) (m : res A) : Prop := exists a, m = Ok a /\ Q a.
Lemma fine_bind {A B} (m : res A) (k : A -> res B) P Q : fine P m -> (forall a, P a -> fine Q (k a)) -> fine Q (bind m k).
Proof. intros (a & -> & H) K. cbn [bind]. now apply K. Qed.
Lemma fine_ok {A} (a : A) (Q : A -> Prop) : Q a -> fine Q (Ok a).
Proof. exists a. auto. Qed.
Definition any {A} (_ : A) : Prop := True.

Section Doc.
Variables (src : bytes) (root : node) (ds : list diag).
Hypothesis HP : parse src = Ok (Some root, ds).

Definition good (m : node) : Prop := within root m.
Lemma within_trans x y z : within x y -> within y z -> within x z.
Proof. induction 1; auto. intros H1. econstructor; eauto. Qed.
Lemma good_field n c : good n -> In c (fields n) -> good c.
Proof. intros G I. eapply within_trans; [exact G|]. econstructor; [exact I|constructor]. Qed.
Lemma good_child n c : good n -> In (Some c) (children n) -> good c.
Proof. intros G I. eapply good_field; [exact G|]. unfold fields. apply in_or_app. left. now apply present_in. Qed.
Lemma good_node m : node_of root m -> good m.
Proof.
  unfold good. generalize root. intros r. induction 1; [constructor|]. econstructor; [|eassumption]. unfold fields. apply in_or_app. now left.
Qed.
Lemma good_range m : good m -> range_in src (nrange m).
Proof. intros G. eapply C18_in_document_all_proof; eauto. Qed.
Lemma good_src m : good m -> fine any (nsrc src m).
Proof.
  intros G. destruct (good_range m G) as ((pre & post & E & C) & _). unfold nsrc.
  destruct (Nat.ltb (List.length src) (off (nl m))) eqn:L; [|now apply fine_ok]. exfalso. apply Nat.ltb_lt in L.
  destruct C as (L' & _). unfold nl in L. rewrite E, app_length in L. lia.
Qed.
Lemma good_value v : (forall e, v = Some e -> good e) -> fine any (value_src src v).
Proof. intros H. destruct v as [e|]; cbn; [apply good_src; auto|now apply fine_ok]. Qed.

(** the edits lie in the document *)
Definition edit_in (e : tedit) : Prop := range_in src (e_range e).
Definition edits_in (o : option tedit) : Prop := forall e, o = Some e -> edit_in e.

Lemma s_toInherit m : good m -> edits_in (toInherit src m).
Proof.
  intros G e E. unfold toInherit in E. destruct m; try discriminate. destruct value as [v|]; [|discriminate].
  assert (X : e_range e = r).
  { repeat match type of E with context [match ?x with _ => _ end] => destruct x; try discriminate end; injection E as <-; reflexivity. }
  unfold edit_in. rewrite X. exact (good_range _ G).
Qed.
Lemma s_toBinding m : good m -> fine edits_in (toBinding src m).
Proof.
  intros G. assert (R := good_range _ G). unfold toBinding. destruct m; try (apply fine_ok; discriminate). destruct names as [|nm [|]]; try (apply fine_ok; discriminate).
  destruct (staticName nm); [|apply fine_ok; discriminate].
  eapply (fine_bind _ _ any).
  - destruct e as [e|]; [|now apply fine_ok]. eapply fine_bind; [apply good_src; eapply good_child; [exact G|cbn; auto]|]. intros t _. now apply fine_ok.
  - intros v _. apply fine_ok. intros x [= <-]. exact R.
Qed.
Lemma s_flattenText outer bs : Forall (fun c => good c /\ match c with NBinding _ _ _ _ _ => True | _ => False end) bs -> fine any (flattenText src outer bs).
Proof.
  induction 1 as [|c bs [G K] _ IH]; cbn [flattenText]; [now apply fine_ok|]. destruct c; try contradiction.
  eapply fine_bind; [apply good_src; eapply good_child; [exact G|cbn; auto]|]. intros t1 _.
  eapply fine_bind; [apply good_value; intros x ->; eapply good_child; [exact G|cbn; auto]|]. intros t2 _.
  eapply fine_bind; [exact IH|]. intros t3 _. now apply fine_ok.
Qed.
Lemma s_flatten m : good m -> fine edits_in (flattenAttrs src m).
Proof.
  intros G. assert (R := good_range _ G). unfold flattenAttrs. destruct m; try (apply fine_ok; discriminate). destruct value as [v|]; [|apply fine_ok; discriminate].
  destruct (flattenable v) as [bs|] eqn:F; [|apply fine_ok; discriminate]. destruct (forallb isStatic (path_names _)); [|apply fine_ok; discriminate].
  eapply fine_bind; [apply good_src; eapply good_child; [exact G|cbn; auto]|]. intros outer _.
  eapply fine_bind; [apply s_flattenText|].
  - unfold flattenable in F. destruct v; try discriminate. destruct body as [b0|]; [|discriminate]. destruct b0; try discriminate. destruct rc; [discriminate|].
    assert (F' : forallb (fun c => match c with NBinding _ _ p _ _ => forallb isStatic (path_names p) | _ => false end) bs0 = true /\ bs0 = bs).
    { destruct bs0; [discriminate|]. destruct (forallb _ _); [|discriminate]. injection F as <-. auto. }
    destruct F' as [Fb ->]. rewrite forallb_forall in Fb. apply Forall_forall. intros c I. specialize (Fb c I). split; [|destruct c; try discriminate; exact Logic.I].
    eapply good_child; [eapply good_child; [eapply good_child; [exact G|cbn; auto]|cbn; auto]|cbn]. now apply in_map.
  - intros t _. apply fine_ok. intros e [= <-]. exact R.
Qed.

Lemma good_static sa n k a : good n -> attrs_sema n = Some sa -> In (k, a) (sa_static sa) -> good (a_value a).
Proof.
  intros G E I. destruct n; try discriminate. injection E as <-. cbn [sa_static] in I. eapply good_field; [exact G|]. unfold fields. apply in_or_app. right.
  apply in_or_app. right. apply in_or_app. left. apply in_map_iff. exists (k, a). auto.
Qed.
Lemma s_nestedText left : forall n sa, good n -> attrs_sema n = Some sa -> fine any (nestedText left src sa).
Proof.
  induction left as [|left IH]; intros n sa G E; cbn [nestedText]; [now apply fine_ok|].
  eapply (fine_bind _ _ any); [|intros t _; now apply fine_ok].
  assert (X : forall k a, In (k, a) (sa_static sa) -> good (a_value a)) by (intros k a; eapply good_static; eauto).
  induction (sa_static sa) as [|[k a] l IHl]; [now apply fine_ok|].
  eapply fine_bind.
  - eapply (fine_bind _ _ any); [|intros v _; now apply (fine_ok _ any)].
    assert (Ga : good (a_value a)) by (apply (X k); now left).
    destruct (attrs_sema (a_value a)) as [sa'|] eqn:Ea; [|now apply good_src].
    destruct (sa_dynamic sa'); [|now apply good_src]. destruct (fromInherit a); [now apply good_src|]. eapply IH; eauto.
  - intros t _. eapply (fine_bind _ _ any); [apply IHl; intros k' a' I; apply (X k'); now right|]. intros t' _. now apply fine_ok.
Qed.
Lemma s_rest nm2 p v : (forall e, v = Some e -> good e) -> fine any (rest_text src nm2 p v).
Proof. intros H. unfold rest_text. eapply fine_bind; [now apply good_value|]. intros t _. now apply fine_ok. Qed.
Lemma s_entry c : good c -> fine any (shallow_entry src c).
Proof.
  intros G. unfold shallow_entry. destruct c; try (now apply fine_ok).
  assert (V : forall e, value = Some e -> good e) by (intros e ->; eapply good_child; [exact G|cbn; auto]).
  destruct (path_names _) as [|nm [|nm2 l]]; [now apply fine_ok| |].
  - eapply fine_bind; [now apply good_value|]. intros t _. now apply fine_ok.
  - destruct (Nat.leb _ _); [|now apply fine_ok]. eapply fine_bind; [now apply s_rest|]. intros t _. now apply fine_ok.
Qed.
Lemma s_entries l : Forall good l -> fine any (shallow_entries src l).
Proof.
  induction 1 as [|c l G _ IH]; cbn [shallow_entries]; [now apply fine_ok|]. eapply fine_bind; [now apply s_entry|]. intros t _.
  eapply fine_bind; [exact IH|]. intros t' _. now apply fine_ok.
Qed.
Lemma s_siblings bind first bs : good bind -> Forall good bs -> range_in src (siblingsRange bind first bs).
Proof.
  intros G F. unfold siblingsRange. assert (R := good_range _ G). revert R. generalize (nrange bind). 
  assert (F' : Forall good (filter (is_sibling first) bs)) by (apply Forall_forall; intros c I; apply filter_In in I; rewrite Forall_forall in F; now apply F).
  induction F' as [|c l Gc _ IH]; intros r R; cbn [fold_left]; [exact R|]. apply IH. destruct (good_range _ Gc) as (C1 & C2 & C3). destruct R as (R1 & R2 & R3).
  unfold range_in, nl, nr. cbn [lcur rcur].
  destruct (Nat.ltb (off (lcur (nrange c))) (off (lcur r))) eqn:L1; destruct (Nat.ltb (off (rcur r)) (off (rcur (nrange c)))) eqn:L2;
    (split; [assumption|split; [assumption|]]); rewrite ?Nat.ltb_lt, ?Nat.ltb_ge in *; lia.
Qed.
Lemma nested_good attrs first sa : good attrs -> nested_sema first attrs = Some sa -> exists n, good n /\ attrs_sema n = Some sa.
Proof.
  intros G E. unfold nested_sema in E. destruct (attrs_sema attrs) as [s0|] eqn:Es; [|discriminate]. destruct (sfind first (sa_static s0)) as [a|] eqn:Ef; [|discriminate].
  exists (a_value a). split; [|exact E].
  assert (I : exists k, In (k, a) (sa_static s0)).
  { clear - Ef. induction (sa_static s0) as [|[k x] l IH]; cbn in Ef; [discriminate|]. destruct (bytes_eqb _ _); [injection Ef as <-; exists k; now left|].
    destruct (IH Ef) as [k' I']. exists k'. now right. }
  destruct I as [k I]. eapply good_static; eauto.
Qed.
Lemma s_pack bd bs a : good bd -> good bs -> good a -> fine (Forall edit_in) (packAttrs src bd bs a).
Proof.
  intros G1 G2 G3. unfold packAttrs. assert (R := good_range _ G1).
  destruct bd; try (apply fine_ok; constructor). destruct bs; try (apply fine_ok; constructor). destruct a; try (apply fine_ok; constructor).
  destruct rc; [apply fine_ok; constructor|]. 
  assert (V : forall e, value = Some e -> good e) by (intros e ->; eapply good_child; [exact G1|cbn; auto]).
  destruct (path_names _) as [|nm1 [|nm2 l]] eqn:Ep; try (apply fine_ok; constructor).
  destruct (negb _); [apply fine_ok; constructor|]. destruct (staticName nm1) as [first|]; [|apply fine_ok; constructor].
  destruct (getSiblingCount _ _) as [|n]; [apply fine_ok; constructor|].
  eapply (fine_bind _ _ any).
  { unfold packOneText. eapply fine_bind; [apply good_src|].
    - destruct bd; try discriminate. cbn in Ep. subst names. eapply good_child; [eapply good_child; [exact G1|cbn; auto]|cbn; auto].
    - intros t _. destruct (Nat.ltb _ _); [now apply fine_ok|]. eapply fine_bind; [now apply s_rest|]. intros t' _. now apply fine_ok. }
  intros one _. cbv zeta.
  assert (E1 : Forall edit_in (match one with [] => [] | _ => [TEdit r one] end)) by (destruct one; constructor; [exact R|constructor]).
  destruct (Nat.eqb _ 1); [now apply fine_ok|]. destruct (nested_sema first _) as [sa|] eqn:En; [|apply fine_ok; constructor].
  assert (Fb : Forall good bs) by (apply Forall_forall; intros c I; eapply good_child; [exact G2|cbn; now apply in_map]).
  eapply (fine_bind _ _ any).
  { unfold shallowText. eapply fine_bind; [apply s_entries|intros t _; now apply fine_ok].
    apply Forall_forall. intros c I. apply filter_In in I. rewrite Forall_forall in Fb. now apply Fb. }
  intros sh _. eapply (fine_bind _ _ any).
  { destruct (nested_good _ _ _ G3 En) as (n0 & Gn & En'). eapply s_nestedText; eauto. }
  intros nt _. apply fine_ok. apply Forall_app. split; [exact E1|].
  assert (S_ := s_siblings _ first bs G1 Fb). constructor; [exact S_|]. constructor; [exact S_|constructor].
Qed.
Lemma s_parts esc fs : Forall good (interps fs) -> fine any (buildParts src esc fs).
Proof.
  induction fs as [|[t|n] fs IH]; cbn [buildParts interps]; intros F; [now apply fine_ok| |].
  - eapply fine_bind; [now apply IH|]. intros r _. now apply fine_ok.
  - inversion F; subst. eapply fine_bind; [now apply good_src|]. intros r _. eapply fine_bind; [now apply IH|]. intros r' _. now apply fine_ok.
Qed.
Lemma s_string m : good m -> fine (fun o => forall r t, o = Some (r, t) -> range_in src r) (rewriteString src m).
Proof.
  intros G. assert (R := good_range _ G). unfold rewriteString. destruct m; try (apply fine_ok; discriminate). destruct m; try (apply fine_ok; discriminate).
  assert (F : Forall good (interps frags)).
  { apply Forall_forall. intros c I. eapply good_child; [eapply good_child; [exact G|cbn; auto]|cbn; now apply in_map]. }
  destruct (isIndentedString _ _); (eapply fine_bind; [now apply s_parts|]; intros t _; apply fine_ok; intros r1 t1 [= <- _]; exact R).
Qed.

Variable pm : pmap.
Hypothesis HM : parents root = Ok pm.
Lemma s_up n k : node_of root n -> fine (fun o => forall m, o = Some m -> node_of root m) (upTo pm n k).
Proof.
  intros N. destruct (up_ok root pm (fun k' => nodekind_beq k' k) n (parse_identified _ _ _ HP) HM N) as (l & C & R). unfold upTo. rewrite R. apply fine_ok.
  intros m F. apply find_some in F as [I _]. clear R. induction C as [|n p l Ip C IH].
  - destruct I as [<-|[]]. constructor.
  - destruct I as [<-|I]; [exact N|]. apply IH; auto. eapply chain_node; eauto.
Qed.
Lemma s_query n p : node_of root n -> pquery pm n = Some p -> node_of root p.
Proof.
  intros N Q. destruct (parent_ok root pm n p (parse_identified _ _ _ HP) HM N Q) as [[-> ->]|(_ & Np & _)]; [constructor|exact Np].
Qed.
End Doc.
