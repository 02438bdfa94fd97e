(** Property C95: the variables of an accepted document are coloured. *)
From Verif Require Import Base TextModel Diag LexModel AstModel ParseModel ParseSpec ParseFacts FeatModel FeatSpec FeatProofs FeatFacts GramSpec VlaModel VlaSpec VlaFacts SeenFacts ShownSpec ShownProofs ShownFacts.


(** C95.  In a document without errors, every variable that is written outside of strings, parameters, [inherit] and
    dynamic names -- also in sets that are merged or nested by a path such as [a.b.c = ...] -- has a token in the answer
    to textDocument/semanticTokens: the decoded token starts where the variable starts, is as long as it, and its type
    and modifiers are those the analysis [s] of its name calls for.  Missing: the places named. *)
Theorem C95_coloured_partial : forall s src root ds out v x, (Z.of_nat (List.length src) < 2147483648)%Z ->
  parse src = Ok (Some root, ds) -> no_errors ds -> semanticTokens s src root = Ok out ->
  in_view root v -> is_var v x -> line (nl v) = line (nr v) ->
  exists a, In a (decode 0 0 out) /\ marks s (ab_type a) (ab_mods a) v /\
    Z.of_nat (ab_line a) = p_line (offsetToPosition src (off (nl v))) /\
    Z.of_nat (ab_start a) = p_char (offsetToPosition src (off (nl v))) /\
    ab_len a = off (nr v) - off (nl v).
Proof. exact C95_coloured_partial_proof. Qed.
Print Assumptions C95_coloured_partial.

Example C95_nonvacuous :
  let src := b "let f = a: a.b or y; y = rec { b.c = y; b.${""d""}.d = f; b = { e = [ y ]; }; }; in with y; f z" in
  exists root s out, parse src = Ok (Some root, []) /\ vla table root = Ok s /\ semanticTokens s src root = Ok out /\
    let varAt a := existsb (fun v => is_varb v && at_place src v a) (sight 30 root) in
    map (fun a => (ab_start a, ab_type a)) (filter varAt (decode 0 0 out)) =
    [(11, ST_Defined); (18, ST_Defined); (37, ST_Defined); (53, ST_Defined); (68, ST_Defined); (87, ST_Defined); (90, ST_Defined); (92, ST_FromWith)].
Proof.
  do 3 eexists. split; [vm_compute; reflexivity|]. split; [vm_compute; reflexivity|]. split; [vm_compute; reflexivity|]. vm_compute. reflexivity.
Qed.

(** The full claim fails in each of those places: the document has no diagnostic at all, and nothing in the answer starts
    at the variable [x]. *)
Theorem C95_refuted :
  forall src, In src [b "x: ""${x}"""; b "x: { a ? x }: a"; b "x: { inherit (x) a; }"; b "x: { ${x} = 1; }"; b "x: x.${x}"] ->
  exists root s out v, parse src = Ok (Some root, []) /\ vla table root = Ok s /\ semanticTokens s src root = Ok out /\
    GramSpec.within root v /\ is_var v (b "x") /\ line (nl v) = line (nr v) /\
    forall a, In a (decode 0 0 out) -> ~ (Z.of_nat (ab_line a) = p_line (offsetToPosition src (off (nl v))) /\
      Z.of_nat (ab_start a) = p_char (offsetToPosition src (off (nl v)))).
Proof. exact C95_refuted_proof. Qed.
Print Assumptions C95_refuted.
