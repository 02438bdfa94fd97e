(** Proofs of the theorems stated in FixProps. *)
From Verif Require Import Base Diag LexModel AstModel FeatProofs ParseModel ParseSpec ParseInv ParseProofs ParseFacts FixSpec VlaModel VlaClean RefSpec.

Definition fixed (src : bytes) : list (bytes * bytes) :=
  match parse src with
  | Ok (_, ds) => flat_map (fun d => map (fun f => (f_msg f, apply_edits src (rev (f_edits f)))) (d_fixes d)) ds
  | _ => []
  end.
Lemma fixed_in src t out : In (t, out) (fixed src) ->
  exists tree ds d f, parse src = Ok (tree, ds) /\ In d ds /\ In f (d_fixes d) /\ f_msg f = t /\ apply_edits src (rev (f_edits f)) = out.
Proof.
  unfold fixed. destruct (parse src) as [[tree ds]| |]; [|intros []|intros []]. intros I.
  apply in_flat_map in I as (d & Id & I). apply in_map_iff in I as (f & E & If). injection E as <- <-.
  exists tree, ds, d, f. auto.
Qed.
Definition memb (t out : bytes) (l : list (bytes * bytes)) : bool :=
  existsb (fun p => bytes_eqb t (fst p) && bytes_eqb out (snd p)) l.
Lemma memb_in t out l : memb t out l = true -> In (t, out) l.
Proof.
  intros H. apply existsb_exists in H as ([t' out'] & I & E). apply andb_prop in E as [E1 E2].
  apply bytes_eqb_eq in E1, E2. cbn in E1, E2. now subst.
Qed.
Lemma offered src t out : memb t out (fixed src) = true ->
  exists tree ds d f, parse src = Ok (tree, ds) /\ In d ds /\ In f (d_fixes d) /\ f_msg f = t /\ apply_edits src (rev (f_edits f)) = out.
Proof. intros H. apply fixed_in, memb_in, H. Qed.

Lemma C93_parser_partial_proof :
  forall src tree ds d f, parse src = Ok (tree, ds) -> In d ds -> In f (d_fixes d) -> keeps_promise src (d_range d) (f_msg f) (f_edits f).
Proof.
  intros src tree ds d f E Hd Hf. pose proof (parse_ok src) as P. rewrite E in P. destruct P as (P & _).
  rewrite Forall_forall in P. destruct (P d Hd) as (_ & _ & K). unfold fixes_kept in K. rewrite Forall_forall in K. exact (K f Hf).
Qed.

Lemma C93_analysis_partial_proof :
  forall src root ds primops s d f, parse src = Ok (Some root, ds) -> vla primops root = Ok s -> In d (v_diags s) ->
    In f (d_fixes d) -> keeps_promise src (d_range d) (f_msg f) (f_edits f).
Proof.
  intros src root ds primops s d f E V Hd Hf. pose proof (vla_clean src root ds E primops s V) as P.
  rewrite Forall_forall in P. destruct (P d Hd) as (_ & _ & K). unfold fixes_kept in K. rewrite Forall_forall in K. exact (K f Hf).
Qed.

Lemma C93_at_refuted_proof :
  exists src tree ds d f, parse src = Ok (tree, ds) /\ In d ds /\ In f (d_fixes d) /\ f_msg f = b "remove extra @" /\
    src = b "a @ : 1" /\ apply_edits src (rev (f_edits f)) = b " @ : 1".
Proof.
  exists (b "a @ : 1"). destruct (offered (b "a @ : 1") (b "remove extra @") (b " @ : 1")) as (t & ds & d & f & H1 & H2 & H3 & H4 & H5);
    [vm_compute; reflexivity|]. exists t, ds, d, f. repeat (split; [assumption || reflexivity|]). assumption.
Qed.

Lemma C93_formals_refuted_proof :
  exists src tree ds d f, parse src = Ok (tree, ds) /\ In d ds /\ In f (d_fixes d) /\ f_msg f = b "insert dummy formals" /\
    src = b "a @ : 1" /\ apply_edits src (rev (f_edits f)) = b "a{} @ : 1".
Proof.
  exists (b "a @ : 1"). destruct (offered (b "a @ : 1") (b "insert dummy formals") (b "a{} @ : 1")) as (t & ds & d & f & H1 & H2 & H3 & H4 & H5);
    [vm_compute; reflexivity|]. exists t, ds, d, f. repeat (split; [assumption || reflexivity|]). assumption.
Qed.

Lemma C93_parens_refuted_proof :
  exists src tree ds d f, parse src = Ok (tree, ds) /\ In d ds /\ In f (d_fixes d) /\ f_msg f = b "remove ( and )" /\
    src = b "f(x)" /\ apply_edits src (rev (f_edits f)) = b "fx".
Proof.
  exists (b "f(x)"). destruct (offered (b "f(x)") (b "remove ( and )") (b "fx")) as (t & ds & d & f & H1 & H2 & H3 & H4 & H5);
    [vm_compute; reflexivity|]. exists t, ds, d, f. repeat (split; [assumption || reflexivity|]). assumption.
Qed.

Lemma C93_let_refuted_proof :
  exists src tree ds d f, parse src = Ok (tree, ds) /\ In d ds /\ In f (d_fixes d) /\ f_msg f = b "convert to `let ... in ...`" /\
    src = b "let{a=1;body=a;}" /\ apply_edits src (rev (f_edits f)) = b "leta=1;in a".
Proof.
  exists (b "let{a=1;body=a;}"). destruct (offered (b "let{a=1;body=a;}") (b "convert to `let ... in ...`") (b "leta=1;in a")) as (t & ds & d & f & H1 & H2 & H3 & H4 & H5);
    [vm_compute; reflexivity|]. exists t, ds, d, f. repeat (split; [assumption || reflexivity|]). assumption.
Qed.

Lemma C93_body_refuted_proof :
  exists src tree ds d f, parse src = Ok (tree, ds) /\ In d ds /\ In f (d_fixes d) /\ f_msg f = b "convert to `let ... in ...`" /\
    src = b "let { body.x = 1; }" /\ apply_edits src (rev (f_edits f)) = b "let   in 1".
Proof.
  exists (b "let { body.x = 1; }"). destruct (offered (b "let { body.x = 1; }") (b "convert to `let ... in ...`") (b "let   in 1")) as (t & ds & d & f & H1 & H2 & H3 & H4 & H5);
    [vm_compute; reflexivity|]. exists t, ds, d, f. repeat (split; [assumption || reflexivity|]). assumption.
Qed.

Lemma C93_inherit_refuted_proof :
  exists src tree ds d f, parse src = Ok (tree, ds) /\ In d ds /\ In f (d_fixes d) /\ f_msg f = b "remove `inherit` keyword" /\
    src = b "{ inherit (e); }" /\ apply_edits src (rev (f_edits f)) = b "{  (e) }".
Proof.
  exists (b "{ inherit (e); }"). destruct (offered (b "{ inherit (e); }") (b "remove `inherit` keyword") (b "{  (e) }")) as (t & ds & d & f & H1 & H2 & H3 & H4 & H5);
    [vm_compute; reflexivity|]. exists t, ds, d, f. repeat (split; [assumption || reflexivity|]). assumption.
Qed.
