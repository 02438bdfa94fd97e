(** Proofs of the theorems stated in IdProps. *)
From Verif Require Import Base Diag LexModel AstModel PSupModel SemaModel ParseModel ParseSpec ParseProofs NavModel NavSpec NavProofs NavFacts VlaModel VlaSpec VlaPost VlaBase VlaThms VlaFacts RefSpec IdSpec IdProofs VlaClean VlaTotal.

Lemma C73_identities_proof : forall src root ds x y, parse src = Ok (Some root, ds) ->
  node_of root x -> node_of root y -> nid x = nid y -> x = y.
Proof.
  intros src root ds x y H. exact (parse_identified src root ds H x y).
Qed.

Lemma C73_one_parent_proof : forall src root ds p q n, parse src = Ok (Some root, ds) -> node_of root p -> node_of root q ->
  In n (present (children p)) -> In n (present (children q)) -> p = q \/ let_keyword p q n \/ let_keyword q p n.
Proof.
  exact parse_one_parent.
Qed.

Lemma C73_one_scope_proof : forall src root ds primops sc1 n1 sc2 n2, parse src = Ok (Some root, ds) ->
  visit (prelude primops) root sc1 n1 -> visit (prelude primops) root sc2 n2 -> nid n1 = nid n2 ->
  sc1 = sc2 /\ n1 = n2.
Proof.
  intros src root ds primops sc1 n1 sc2 n2 H. exact (parse_coherent src root ds primops H sc1 n1 sc2 n2).
Qed.

Lemma C73_declared_proof : forall src root ds primops sc o x nd, parse src = Ok (Some root, ds) ->
  declaration primops root sc o x nd -> node_of root nd /\ (kind_of nd = NK_Identifier \/ kind_of nd = NK_AttrName).
Proof.
  intros src root ds primops sc o x nd H (V & who & names & role & O & I). exact (doc_declared src root ds H _ _ _ _ _ _ _ _ V O I).
Qed.

Lemma C73_with_proof : forall src root ds primops sc i r kw semi w e, parse src = Ok (Some root, ds) ->
  visit (prelude primops) root sc (NWith i r kw semi w e) ->
  node_of root (NWith i r kw semi w e) /\
  (forall sc' i' r' kw' semi' w' e', visit (prelude primops) root sc' (NWith i' r' kw' semi' w' e') ->
     nid kw' = nid kw -> NWith i' r' kw' semi' w' e' = NWith i r kw semi w e) /\
  (forall sc' o x nd, declaration primops root sc' o x nd -> nid nd <> nid kw).
Proof.
  intros src root ds primops sc i r kw semi w e H V. pose proof (doc_with src root ds H _ _ _ _ _ _ _ _ V) as N.
  split; [exact N|]. exact (parse_marked src root ds primops H i r kw semi w e N).
Qed.

Lemma C22_analysis_proof : forall src root ds primops s, parse src = Ok (Some root, ds) ->
  vla primops root = Ok s -> Forall (diag_clean src) (v_diags s).
Proof.
  intros src root ds primops s H V. eapply Forall_impl; [|exact (vla_clean src root ds H primops s V)]. now intros d [? _].
Qed.

Lemma C62_analysis_proof : forall src root ds primops s d, parse src = Ok (Some root, ds) ->
  vla primops root = Ok s -> In d (v_diags s) ->
    (exists text, d_format d = Ok text /\ fills (dmessage (d_kind d)) (d_args d) text) /\
    Forall (fun n => exists text, n_format n = Ok text /\ fills (nmessage (n_kind n)) (n_args n) text) (d_notes d).
Proof.
  intros src root ds primops s d H V I. apply instantiated_renders. pose proof (vla_clean src root ds H primops s V) as F.
  rewrite Forall_forall in F. apply (F d I).
Qed.

Lemma plain_names primops : plain_table primops -> Forall (fun p => snd p = false) primops -> NoDup (builtinNames primops).
Proof.
  intros [N D] F. unfold builtinNames.
  assert (E : filter (fun p => negb (snd p)) primops = primops).
  { clear N D. induction F as [|p l Hp _ IH]; cbn; [reflexivity|]. rewrite Hp. cbn. now rewrite IH. }
  rewrite E.
  assert (C : NoDup (Constants ++ [b "builtins"; b "__curPos"])).
  { assert (K : forallb (fun i => negb (existsb (bytes_eqb (nth i (Constants ++ [b "builtins"; b "__curPos"]) [])) (firstn i (Constants ++ [b "builtins"; b "__curPos"])))) (seq 0 14) = true) by (vm_compute; reflexivity).
    clear - K. repeat (constructor; [intro H; repeat (destruct H as [H|H]; [discriminate H|]); exact H|]). constructor. }
  assert (R : forall x, In x (Constants ++ [b "builtins"; b "__curPos"]) -> In x reserved).
  { intros x H. cbn [Constants app] in H. unfold reserved. repeat (destruct H as [<-|H]; [cbn; tauto|]). destruct H. }
  clear E F. induction (map fst primops) as [|x l IH]; [exact C|]. cbn [app]. inversion N; subst. constructor.
  - intro H. apply in_app_or in H as [H|H]; [contradiction|]. apply (D x (or_introl eq_refl)). now apply R.
  - apply IH; [assumption|]. intros y Hy. apply D. now right.
Qed.

Lemma C74_partial_proof : forall src root ds primops, parse src = Ok (Some root, ds) ->
  plain_table primops -> (forall x internal, In (x, internal) primops -> internal = false) ->
  exists s, vla primops root = Ok s.
Proof.
  intros src root ds primops H P I.
  assert (F : Forall (fun p => snd p = false) primops) by (rewrite Forall_forall; intros [x f] X; exact (I x f X)).
  exact (vla_total src root ds H primops (plain_names primops P F) F).
Qed.

Lemma C74_refuted_proof : exists src root primops, parse src = Ok (Some root, []) /\ plain_table primops /\
  vla primops root = Crash "primop name should be defined".
Proof.
  exists (b "fetchFinal {}"). eexists. exists [(b "fetchFinal", true)]. split; [vm_compute; reflexivity|]. split; [|vm_compute; reflexivity].
  split.
  - repeat (constructor; [intro H; repeat (destruct H as [H|H]; [discriminate H|]); exact H|]). constructor.
  - intros x H R. unfold reserved in R. repeat (destruct H as [<-|H]; [repeat (destruct R as [R|R]; [discriminate R|]); exact R|]). destruct H.
Qed.
