(** Property C75: what the parser accepts. *)
From Verif Require Import Base Diag LexModel AstModel PSupModel ParseModel GramSpec AccSpec AccProofs AccFacts.

(** ** C75: valid documents are accepted, and read as what they say.
    Take any well formed term [t] ([wf], AccSpec: operators grouped by the table of precedences, no name defined twice
    in one place, numbers in range).  A document whose tokens, without lexical errors, are those of [t] - however it
    is laid out and commented - is parsed without any diagnostic, and the tree is the tree of [t].
    Missing: terms with strings, paths, URIs and interpolations; the old [let { }]; [or] as a name; sets in which
    several bindings contribute to one nested set ([a.b = 1; a.c = 2;]); parentheses that are reported as redundant;
    and what C75_refuted and C20_refuted show to be wrong. *)
Theorem C75_partial : forall src t ts l, wf LExpr t ->
  lex_all src = Ok (ts, l) -> diags l = [] ->
  map (fun t => (tk t, tview t)) ts = toks t ++ [(tok_eof, [])] ->
  exists root, parse src = Ok (Some root, []) /\ is_tree t root.
Proof. exact C75_partial_proof. Qed.
Print Assumptions C75_partial.
Example C75_nonvacuous :
  let src := b "{ lib, n ? 1, ... }@args: # c
  let y = !n + 2 * lib.x or 3; z = f: if f ? a.b then -f.a.b else assert y == 1; [ ]; in
  with lib; rec { inherit (lib) g h; a.b = g [ y (x: y) <nixpkgs> ] { } // { c = 1.5; }; inherit y; }" in
  let t := LamSet None [(b "lib", None); (b "n", Some (Num (b "1")))] true (Some (b "args"))
    (Let_ [Bnd [b "y"] (Un tok_op_not (Bi tok_op_add (Var (b "n")) (Bi tok_op_mul (Num (b "2")) (Get (Var (b "lib")) [b "x"] (Some (Num (b "3")))))));
           Bnd [b "z"] (Lam (b "f") (If_ (HasP (Var (b "f")) [b "a"; b "b"]) (Un tok_op_negate (Get (Var (b "f")) [b "a"; b "b"] None))
              (Assert_ (Bi tok_op_eq (Var (b "y")) (Num (b "1"))) (Seq []))))]
      (With_ (Var (b "lib")) (Set_ true
         [Inh (Some (Var (b "lib"))) [b "g"; b "h"];
          Bnd [b "a"; b "b"] (Bi tok_op_update (Call (Var (b "g")) [Seq [Var (b "y"); Paren (Lam (b "x") (Var (b "y"))); SPath (b "nixpkgs")]; Set_ false []])
                                               (Set_ false [Bnd [b "c"] (Flt (b "1.5"))]));
          Inh None [b "y"]]))) in
  wf LExpr t /\ exists ts l, lex_all src = Ok (ts, l) /\ diags l = [] /\ map (fun t => (tk t, tview t)) ts = toks t ++ [(tok_eof, [])].
Proof.
  split; [|do 2 eexists; split; [vm_compute; reflexivity|split; vm_compute; reflexivity]].
  assert (N : forall d c, nth_error LexSpec.digits d = Some c -> numeral [c] (N.of_nat d)).
  { intros d c E. change [c] with ([] ++ [c]). replace (N.of_nat d) with (10 * 0 + N.of_nat d)%N by reflexivity. constructor; [constructor|exact E]. }
  assert (N1 : wf LSimple (Num (b "1"))) by (eapply wf_num; [apply (N 1)|]; reflexivity).
  assert (N2 : wf LSimple (Num (b "2"))) by (eapply wf_num; [apply (N 2)|]; reflexivity).
  assert (N3 : wf LSimple (Num (b "3"))) by (eapply wf_num; [apply (N 3)|]; reflexivity).
  repeat first
    [ exact I | apply wf_lamset | apply wf_let | apply wf_with | apply wf_lam | apply wf_if | apply wf_assert | apply wf_bi | apply wf_un | apply wf_has | apply wf_call
    | apply wf_get | apply wf_set | apply wf_seq | apply wf_paren | apply wf_spath | apply wf_flt | apply wf_var
    | apply wfb_bnd | apply wfb_inh
    | exact N1 | exact N2 | exact N3
    | apply wf_op | apply wf_app | apply wf_sel | apply wf_simple
    | discriminate | apply Forall_cons | apply Forall_nil
    | match goal with |- NoDup _ => repeat constructor; cbn; intuition discriminate end
    | match goal with |- In _ _ => cbn; tauto end
    | match goal with |- closes _ _ /\ _ => split; [do 4 eexists; split; [reflexivity|split; [reflexivity|left; cbn; repeat constructor]]|intros M; inversion M; cbn in *; intuition discriminate] end
    | match goal with |- nests _ _ /\ _ => split; [do 4 eexists; split; [reflexivity|split; [reflexivity|left; cbn; repeat constructor]]|intros M; inversion M; cbn in *; intuition discriminate] end
    | match goal with |- None = None \/ _ => now left end
    | match goal with |- forall x d, In _ _ -> _ => intros x d [H|[H|[]]]; [discriminate|injection H as <- <-] end
    | match goal with |- forall e, Some _ = Some e -> _ => intros e [= <-] end
    | match goal with |- forall e, None = Some e -> _ => discriminate end
    | match goal with |- ~ plain _ => intros H; exact H end ].
Qed.

(** Applications of a number or a set are syntactically valid (evaluating them fails), but the parser stops before the
    argument.  All other conditions of C75_partial hold. *)
Theorem C75_refuted : exists src f args ts l o ds, wf LSel f /\ args <> [] /\ Forall (wf LSel) args /\
  lex_all src = Ok (ts, l) /\ diags l = [] /\ map (fun t => (tk t, tview t)) ts = toks (Call f args) ++ [(tok_eof, [])] /\
  parse src = Ok (o, ds) /\ ds <> [].
Proof. exact C75_refuted_proof. Qed.
Print Assumptions C75_refuted.
