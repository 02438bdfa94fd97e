(** Proofs of the theorems stated in AccProps. *)
From Verif Require Import Base Diag LexModel AstModel PSupModel ParseModel GramSpec AccSpec AccProofs.

Lemma C75_partial_proof : forall src t ts l, wf LExpr t ->
  lex_all src = Ok (ts, l) -> diags l = [] ->
  map (fun t => (tk t, tview t)) ts = toks t ++ [(tok_eof, [])] ->
  exists root, parse src = Ok (Some root, []) /\ is_tree t root.
Proof.
  intros src t ts l W E D T. eapply accepted; eauto.
Qed.

Lemma C75_refuted_proof : exists src f args ts l o ds, wf LSel f /\ args <> [] /\ Forall (wf LSel) args /\
  lex_all src = Ok (ts, l) /\ diags l = [] /\ map (fun t => (tk t, tview t)) ts = toks (Call f args) ++ [(tok_eof, [])] /\
  parse src = Ok (o, ds) /\ ds <> [].
Proof.
  exists (b "{ } x"), (Set_ false []), [Var (b "x")]. do 4 eexists.
  split; [repeat constructor|]. split; [discriminate|]. split; [repeat constructor|]. split; [vm_compute; reflexivity|].
  split; [vm_compute; reflexivity|]. split; [vm_compute; reflexivity|]. split; [vm_compute; reflexivity|discriminate].
Qed.
