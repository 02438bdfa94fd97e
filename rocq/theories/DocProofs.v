(** For whole documents: what the semantic actions have done to every set, list of formals and lambda argument of the tree. *)
From Verif Require Import Base Diag LexModel AstModel PSupModel SemaModel ParseModel ParseSpec ParseTree ParseFacts SemaSpec IdTree IdStep IdProofs DocSpec DocBase DocStep.

Section Doc.
Variables (src : bytes) (root : node) (ds : list diag).
Hypothesis HP : parse src = Ok (Some root, ds).

Lemma under_root m : under [root] m <-> node_of root m.
Proof. rewrite under_cons, under_nil. tauto. Qed.
Lemma rev_filter {A} (f : A -> bool) l : filter f (rev l) = rev (filter f l).
Proof.
  induction l as [|x l IH]; [reflexivity|]. cbn [rev filter]. rewrite filter_app, IH. cbn [filter]. destruct (f x); cbn [rev]; [reflexivity|now rewrite app_nil_r].
Qed.
Lemma doc_built m : node_of root m -> exists news, built src m news /\ in_a_row news ds.
Proof.
  intros N. destruct (parse_J _ _ _ HP) as (s & (H1 & _) & ->). destruct (H1 m) as (news & B & l1 & l2 & E); [now apply under_root|].
  exists news. split; [exact B|]. unfold said in E. exists (rev l2), (rev l1). rewrite rev_filter, E, !rev_app_distr, rev_involutive. now rewrite <- app_assoc.
Qed.
Lemma doc_only d : In d ds -> about_names d = true -> exists m news, node_of root m /\ built src m news /\ In d news.
Proof.
  intros I K. destruct (parse_J _ _ _ HP) as (s & (_ & H2 & _) & ->). destruct (H2 d) as (m & news & U & B & I').
  - unfold said. apply filter_In. split; [now apply in_rev|exact K].
  - exists m, news. split; [now apply under_root|auto].
Qed.
Lemma set_tidy m st : node_of root m -> set_of m = Some st -> tidy st.
Proof. intros N. destruct (parse_J _ _ _ HP) as (s & (_ & _ & H3 & _) & _). apply H3. now apply under_root. Qed.
Lemma doc_literals i r bd rc st dy : node_of root (NAttrs i r bd rc st dy) -> literals_tidy (bindings bd).
Proof.
  intros N names v st' I E. apply items_under in I as (q & Iq & Hv). apply (set_tidy v); [|exact E].
  eapply node_trans; [exact N|]. unfold bindings in Iq. destruct bd as [bn|]; [|destruct Iq].
  assert (Cb : In bn (present (children (NAttrs i r (Some bn) rc st dy)))) by (left; reflexivity).
  eapply node_child; [exact Cb|]. destruct bn; try destruct Iq. all: eapply node_child; [|exact Hv]; cbn [children]; rewrite present_some; cbn [In]; auto.
Qed.
Lemma doc_action i r bd rc st dy : node_of root (NAttrs i r bd rc st dy) ->
  exists s s' news, onExprAttrs r bd rc s = Ok (NAttrs i r bd rc st dy, s') /\ diags (plex s') = rev news ++ diags (plex s) /\
    in_a_row news ds /\ literals_tidy (bindings bd).
Proof.
  intros N. destruct (doc_built _ N) as (news & (s & s' & E & D) & R). exists s, s', news.
  split; [exact E|]. split; [exact D|]. split; [exact R|]. eapply doc_literals; eauto.
Qed.
Lemma doc_formals i r fv d : node_of root (NFormals i r fv d) ->
  exists s s' news, onFormals src r fv s = Ok (NFormals i r fv d, s') /\ diags (plex s') = rev news ++ diags (plex s) /\
    in_a_row news ds /\ forward fv /\ NoDup (map nid fv).
Proof.
  intros N. destruct (doc_built _ N) as (news & (s & s' & E & D) & R). exists s, s', news.
  split; [exact E|]. split; [exact D|]. split; [exact R|].
  assert (Ch : present (children (NFormals i r fv d)) = fv) by (cbn [children]; apply present_some). split.
  - apply Forall_forall. intros f I. refine (proj2 (proj2 (C18_in_document_proof _ _ _ HP f _))).
    eapply doc_child; [exact N|]. rewrite Ch. exact I.
  - destruct (doc_tidy _ _ _ HP _ (node_within _ _ N)) as [_ L]. unfold lrest in L. rewrite Ch in L. clear - L.
    induction L as [|f l F L IH]; cbn [map]; constructor; auto. intros I. apply in_map_iff in I as (g & Eg & Ig).
    rewrite Forall_forall in F. apply (F g Ig (nid f)); [|rewrite <- Eg]; apply wid_self.
Qed.
Lemma doc_argument i r idn f : node_of root (NLambdaArg i r idn f) ->
  exists s s' news, onLambdaArg r idn f s = Ok (NLambdaArg i r idn f, s') /\ diags (plex s') = rev news ++ diags (plex s) /\ in_a_row news ds.
Proof. intros N. destruct (doc_built _ N) as (news & (s & s' & E & D) & R). exists s, s', news. auto. Qed.
Lemma in_row d news : in_a_row news ds -> In d news -> In d ds.
Proof.
  intros (l1 & l2 & E) I. assert (H : In d (filter about_names ds)) by (rewrite E; apply in_or_app; right; apply in_or_app; now left).
  now apply filter_In in H.
Qed.
End Doc.
