(** Proofs of the theorems stated in ParseProps. *)
From Verif Require Import Base Diag LexModel LexSpec LexProofs AstModel PSupModel SemaModel ParseModel ParseSpec ParseInv ParseTree ParseSema ParseProofs.

Lemma C17_terminates_proof : forall src, parse src <> OutOfFuel.
Proof.
  intros src E. pose proof (parse_ok src) as H. rewrite E in H. exact H.
Qed.

Lemma C17_linear_depth_proof : forall src depth, 32 * (List.length src + 2) <= depth ->
  run src depth QExpr (pinit src) <> OutOfFuel /\
  run src depth QExpr (pinit src) = run src (32 * (List.length src + 2)) QExpr (pinit src).
Proof.
  intros src depth H. exact (run_enough src depth (pinit src) H eq_refl).
Qed.

Lemma C18_in_document_proof :
  forall src n ds, parse src = Ok (Some n, ds) -> forall m, node_of n m -> range_in src (nrange m).
Proof.
  intros src n ds E m H. pose proof (parse_ok src) as P. rewrite E in P. destruct P as (_ & P & _).
  destruct (P n eq_refl) as [[k [[S F] _]] _].
  destruct (node_of_shape src n m (conj S F) H) as [[S' _]|K]; [now apply (sok_range src)|].
  apply (sok_range src). eapply within_sok; [|exact S]. clear - H.
  induction H as [n|n c m Hc _ IH]; [constructor|]. eapply within_field; [|exact IH]. unfold fields. apply in_or_app. now left.
Qed.

Lemma C18_in_document_all_proof :
  forall src n ds, parse src = Ok (Some n, ds) -> forall m, within n m -> range_in src (nrange m).
Proof.
  intros src n ds E m H. pose proof (parse_ok src) as P. rewrite E in P. destruct P as (_ & P & _).
  destruct (P n eq_refl) as [[k [[S F] _]] _]. apply (sok_range src). eapply within_sok; eauto.
Qed.

Lemma C18_refuted_proof :
  exists src n m c, parse src = Ok (Some n, []) /\ node_of n m /\ In c (present (children m)) /\
    ~ inside (nrange c) (nrange m).
Proof.
  exists (b "let a = 1; in a"). do 3 eexists. split; [vm_compute; reflexivity|]. split.
  - eapply node_child; [right; left; reflexivity|constructor].
  - split; [right; left; reflexivity|]. unfold inside. vm_compute. intros [H _]. repeat apply le_S_n in H. inversion H.
Qed.

Lemma C18_nested_partial_proof :
  forall src n ds, parse src = Ok (Some n, ds) ->
  forall m c, node_of n m -> In c (present (children m)) ->
    inside (nrange c) (nrange m) \/
    (exists i r body st dy, m = NAttrs i r body (Some c) st dy /\ text_of src (nrange c) = b "let").
Proof.
  intros src n ds E m c. pose proof (parse_ok src) as P. rewrite E in P. destruct P as (_ & P & _).
  destruct (P n eq_refl) as [[k [N _]] _]. exact (nested_children src n m c N).
Qed.

Lemma C18_siblings_apart_proof :
  forall src n ds, parse src = Ok (Some n, ds) ->
    (forall m, node_of n m -> ForallOrdPairs (fun c d => apart (nrange c) (nrange d)) (proper m)) /\
    NoDup (map nid (nodes n)).
Proof.
  intros src n ds E. pose proof (parse_ok src) as P. rewrite E in P. destruct P as (_ & P & _).
  destruct (P n eq_refl) as [[k [N I]] _]. split; [intros m; exact (apart_children src n m N)|]. apply I.
Qed.

Lemma C19_refuted_proof :
  (exists w, parse (b """\") = Crash w) /\ (exists w, parse (b "''''\") = Crash w) /\
  (exists w, parse (b "./a${x}${y}") = Crash w) /\ (exists w, parse (b "./a~/b") = Crash w) /\
  (exists w, parse (b "{ inherit ""a""; }") = Crash w) /\ (exists w, parse (b "{ inherit ${x}; }") = Crash w).
Proof.
  repeat apply conj; eexists; vm_compute; reflexivity.
Qed.

Lemma C19_partial_proof :
  forall src,
    (forall p, src <> p ++ b "\") -> ~ occurs (b "~/") src -> ~ occurs (b "${") src -> ~ occurs (b "inherit") src ->
    exists tree ds, parse src = Ok (tree, ds).
Proof.
  intros src H1 H2 H3 H4. pose proof (parse_ok src) as H. destruct (parse src) as [[o ds]|w|]; [eauto| |destruct H].
  destruct H as [[p E]|[[_ [E|E]]|[_ E]]]; [now destruct (H1 p)|contradiction..].
Qed.

Lemma C19_only_these_partial_proof :
  forall src why, parse src = Crash why ->
    (exists p, src = p ++ b "\") \/
    (why = "should be path_end or ${"%string /\ (occurs (b "~/") src \/ occurs (b "${") src)) \/
    (why = "AttrName::id: not an identifier"%string /\ occurs (b "inherit") src).
Proof.
  intros src why E. pose proof (parse_ok src) as H. rewrite E in H. exact H.
Qed.

Lemma C22_parsing_proof : forall src tree ds, parse src = Ok (tree, ds) -> Forall (diag_clean src) ds.
Proof.
  intros src tree ds E. pose proof (parse_ok src) as H. rewrite E in H. destruct H as (H & _).
  eapply Forall_impl; [|exact H]. now intros d [? _].
Qed.

Lemma C61_identifiers_proof :
  forall src n ds, parse src = Ok (Some n, ds) ->
  forall i r x, within n (NIdent i r x) -> x = text_of src r.
Proof.
  intros src n ds E i r x H. pose proof (parse_ok src) as P. rewrite E in P. destruct P as (_ & P & _).
  destruct (P n eq_refl) as [[k [[S F] _]] _]. pose proof (within_sok src n _ H S) as S'.
  destruct (sok_inv src _ S') as ((_ & _ & _ & L) & _). exact L.
Qed.

Lemma C61_source_proof :
  forall src n ds, parse src = Ok (Some n, ds) ->
  forall m, within n m -> nsrc src m = Ok (text_of src (nrange m)).
Proof.
  intros src n ds E m H. apply nsrc_range. pose proof (parse_ok src) as P. rewrite E in P. destruct P as (_ & P & _).
  destruct (P n eq_refl) as [[k [[S F] _]] _]. apply (sok_range src). eapply within_sok; eauto.
Qed.

Lemma C62_instantiated_proof :
  forall src tree ds d, parse src = Ok (tree, ds) -> In d ds ->
    (exists text, d_format d = Ok text /\ fills (dmessage (d_kind d)) (d_args d) text) /\
    Forall (fun n => exists text, n_format n = Ok text /\ fills (nmessage (n_kind n)) (n_args n) text) (d_notes d).
Proof.
  intros src tree ds d E H. pose proof (parse_ok src) as P. rewrite E in P. destruct P as (P & _).
  rewrite Forall_forall in P. apply instantiated_renders. apply (P d H).
Qed.

Lemma C63_refuted_proof : exists src, parse src = Ok (None, []).
Proof.
  exists (b "# nothing
"). vm_compute. reflexivity.
Qed.

Lemma C63_partial_proof :
  forall src tree, parse src = Ok (tree, []) ->
    match tree with
    | Some n =>
        exists lead trail, src = lead ++ text_of src (nrange n) ++ trail /\
          trivia lead (text_of src (nrange n) ++ trail) /\ trivia trail []
    | None => trivia src []
    end.
Proof.
  intros src tree E. pose proof (parse_ok src) as P. rewrite E in P. destruct P as (_ & P & C). specialize (C eq_refl).
  destruct tree as [n|].
  - apply covers_some; auto. destruct (P n eq_refl) as [[k [[S F] _]] _]. now apply (sok_range src).
  - now apply covers_none.
Qed.
