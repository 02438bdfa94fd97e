(** Properties C17 to C19, C22 and C61 to C63 of the parser. *)
From Verif Require Import Base Diag LexModel LexSpec LexProofs AstModel PSupModel SemaModel ParseModel ParseSpec ParseInv ParseTree ParseSema ParseProofs ParseFacts.

(** ** C17: parsing terminates.
    [run src depth] is the recursive-descent parser that gives up below the given depth of nested calls and loop
    iterations.  It never gives up at a depth of 32 * (length + 2), and a larger allowance changes nothing: the
    unbounded recursion of the code terminates and computes [parse]. *)
Theorem C17_terminates : forall src, parse src <> OutOfFuel.
Proof. exact C17_terminates_proof. Qed.
Print Assumptions C17_terminates.

Theorem C17_linear_depth : forall src depth, 32 * (List.length src + 2) <= depth ->
  run src depth QExpr (pinit src) <> OutOfFuel /\
  run src depth QExpr (pinit src) = run src (32 * (List.length src + 2)) QExpr (pinit src).
Proof. exact C17_linear_depth_proof. Qed.
Print Assumptions C17_linear_depth.

Example C17_nonvacuous :
  (* broken documents: parsed, with diagnostics *)
  (exists n d ds, parse (b "{ a = [ ( ; x: }} ) let in ''") = Ok (Some n, d :: ds)) /\
  (* too small an allowance does run out *)
  run (b "((((a") 10 QExpr (pinit (b "((((a")) = OutOfFuel.
Proof.
  split; [do 3 eexists|]; vm_compute; reflexivity.
Qed.

(** ** C18: ranges are in the document and nested. *)
Theorem C18_in_document :
  forall src n ds, parse src = Ok (Some n, ds) -> forall m, node_of n m -> range_in src (nrange m).
Proof. exact C18_in_document_proof. Qed.
Print Assumptions C18_in_document.

(** The same for everything the tree refers to, also the names and values in the analysed attribute sets. *)
Theorem C18_in_document_all :
  forall src n ds, parse src = Ok (Some n, ds) -> forall m, within n m -> range_in src (nrange m).
Proof. exact C18_in_document_all_proof. Qed.
Print Assumptions C18_in_document_all.

(** False: the attribute set of a let expression has the `let' keyword as a child, which lies before its range. *)
Theorem C18_refuted :
  exists src n m c, parse src = Ok (Some n, []) /\ node_of n m /\ In c (present (children m)) /\
    ~ inside (nrange c) (nrange m).
Proof. exact C18_refuted_proof. Qed.
Print Assumptions C18_refuted.

(** Every other child lies inside its parent.  Missing from the full property: that keyword. *)
Theorem C18_nested_partial :
  forall src n ds, parse src = Ok (Some n, ds) ->
  forall m c, node_of n m -> In c (present (children m)) ->
    inside (nrange c) (nrange m) \/
    (exists i r body st dy, m = NAttrs i r body (Some c) st dy /\ text_of src (nrange c) = b "let").
Proof. exact C18_nested_partial_proof. Qed.
Print Assumptions C18_nested_partial.

(** Children do not overlap each other ([proper] leaves out the keywords `rec' and `let' of attribute sets and
    legacy lets), and all nodes of a tree are different objects. *)
Theorem C18_siblings_apart :
  forall src n ds, parse src = Ok (Some n, ds) ->
    (forall m, node_of n m -> ForallOrdPairs (fun c d => apart (nrange c) (nrange d)) (proper m)) /\
    NoDup (map nid (nodes n)).
Proof. exact C18_siblings_apart_proof. Qed.
Print Assumptions C18_siblings_apart.

Example C18_nonvacuous :
  exists n d ds m, parse (b "{ a, b ? [ 1 ./x${b}/y ] }: rec { inherit (a) c; d.e = ''${c}''; d.f") = Ok (Some n, d :: ds) /\
    within n m /\ m = NIdent (nid m) (nrange m) (b "f").
Proof.
  do 4 eexists. split; [vm_compute; reflexivity|]. split.
  - eapply within_field; [right; left; reflexivity|].
    eapply within_field; [left; reflexivity|].
    eapply within_field; [right; right; left; reflexivity|].
    eapply within_field; [left; reflexivity|].
    eapply within_field; [right; left; reflexivity|].
    eapply within_field; [left; reflexivity|]. constructor.
  - reflexivity.
Qed.

(** ** C19: parsing never aborts.
    False: each of these documents violates an assertion (Lexer::consume past the end, parseExprPath's
    "should be path_end or ${", AttrName::id). *)
Theorem C19_refuted :
  (exists w, parse (b """\") = Crash w) /\ (exists w, parse (b "''''\") = Crash w) /\
  (exists w, parse (b "./a${x}${y}") = Crash w) /\ (exists w, parse (b "./a~/b") = Crash w) /\
  (exists w, parse (b "{ inherit ""a""; }") = Crash w) /\ (exists w, parse (b "{ inherit ${x}; }") = Crash w).
Proof. exact C19_refuted_proof. Qed.
Print Assumptions C19_refuted.

(** Nothing else aborts: a document that does not end in a backslash and contains no `~/', no `${' and no
    `inherit' is always parsed, and an abort is one of the three above.  Missing from the full property: the
    documents with one of these. *)
Theorem C19_partial :
  forall src,
    (forall p, src <> p ++ b "\") -> ~ occurs (b "~/") src -> ~ occurs (b "${") src -> ~ occurs (b "inherit") src ->
    exists tree ds, parse src = Ok (tree, ds).
Proof. exact C19_partial_proof. Qed.
Print Assumptions C19_partial.

Theorem C19_only_these_partial :
  forall src why, parse src = Crash why ->
    (exists p, src = p ++ b "\") \/
    (why = "should be path_end or ${"%string /\ (occurs (b "~/") src \/ occurs (b "${") src)) \/
    (why = "AttrName::id: not an identifier"%string /\ occurs (b "inherit") src).
Proof. exact C19_only_these_partial_proof. Qed.
Print Assumptions C19_only_these_partial.

Example C19_nonvacuous :
  let src := b "{ a, ... }@x: with a; [ (x.y or ./q/w) <n/m> -1 ] ++ ''z'' // let c = if a then 1 else }" in
  (forall p, src <> p ++ b "\") /\ ~ occurs (b "~/") src /\ ~ occurs (b "${") src /\ ~ occurs (b "inherit") src.
Proof.
  set (src := b _). cbv zeta. split.
  - intros p E. apply (f_equal (fun l => last l "a"%char)) in E. rewrite (last_last p "\"%char) in E. vm_compute in E. discriminate.
  - repeat apply conj; apply absent_ok; vm_compute; reflexivity.
Qed.

(** ** C22: diagnostics point inside the document and their fixes apply cleanly.
    Here for the lexer, the parser and the semantic actions; C22_analysis (IdProps) has the variable analysis. *)
Theorem C22_parsing : forall src tree ds, parse src = Ok (tree, ds) -> Forall (diag_clean src) ds.
Proof. exact C22_parsing_proof. Qed.
Print Assumptions C22_parsing.

Example C22_nonvacuous :
  exists n ds, parse (b "let { a = {,x ..., ...}: 1.e; body = @ }") = Ok (n, ds) /\
    9 <= List.length ds /\ 7 <= List.length (flat_map d_fixes ds).
Proof.
  do 2 eexists. split; [vm_compute; reflexivity|]. split; vm_compute; repeat constructor.
Qed.

(** ** C61: identifiers keep their source text. *)
Theorem C61_identifiers :
  forall src n ds, parse src = Ok (Some n, ds) ->
  forall i r x, within n (NIdent i r x) -> x = text_of src r.
Proof. exact C61_identifiers_proof. Qed.
Print Assumptions C61_identifiers.

Theorem C61_source :
  forall src n ds, parse src = Ok (Some n, ds) ->
  forall m, within n m -> nsrc src m = Ok (text_of src (nrange m)).
Proof. exact C61_source_proof. Qed.
Print Assumptions C61_source.

(** The variable made for an inherited name is reached through the analysed set. *)
Example C61_nonvacuous :
  exists n i r, parse (b "{ inherit abc; }") = Ok (Some n, []) /\ within n (NIdent i r (b "abc")) /\
    exists v rv, In (NVar v rv (NIdent i r (b "abc"))) (fields n).
Proof.
  do 3 eexists. split; [vm_compute; reflexivity|]. split.
  - eapply within_field; [right; right; left; reflexivity|].
    eapply within_field; [left; reflexivity|]. constructor.
  - do 2 eexists. right. right. left. reflexivity.
Qed.

(** ** C62: diagnostic messages are fully instantiated. *)
Theorem C62_instantiated :
  forall src tree ds d, parse src = Ok (tree, ds) -> In d ds ->
    (exists text, d_format d = Ok text /\ fills (dmessage (d_kind d)) (d_args d) text) /\
    Forall (fun n => exists text, n_format n = Ok text /\ fills (nmessage (n_kind n)) (n_args n) text) (d_notes d).
Proof. exact C62_instantiated_proof. Qed.
Print Assumptions C62_instantiated.

Example C62_nonvacuous :
  exists n d1 d2 ds, parse (b "{ a = 1; a = (2 + 3; }") = Ok (n, d1 :: d2 :: ds) /\
    d_format d1 = Ok (b "expected )") /\ map n_format (d_notes d1) = [Ok (b "to match this (")] /\
    d_format d2 = Ok (b "duplicated attrname `a`").
Proof.
  do 4 eexists. split; [vm_compute; reflexivity|]. repeat split; vm_compute; reflexivity.
Qed.

(** ** C63: a clean parse consumes the whole document.
    False for the empty document (and one of only comments): no diagnostic, and no tree. *)
Theorem C63_refuted : exists src, parse src = Ok (None, []).
Proof. exact C63_refuted_proof. Qed.
Print Assumptions C63_refuted.

(** Otherwise true.  Missing from the full property: the tree of a document without any token. *)
Theorem C63_partial :
  forall src tree, parse src = Ok (tree, []) ->
    match tree with
    | Some n =>
        exists lead trail, src = lead ++ text_of src (nrange n) ++ trail /\
          trivia lead (text_of src (nrange n) ++ trail) /\ trivia trail []
    | None => trivia src []
    end.
Proof. exact C63_partial_proof. Qed.
Print Assumptions C63_partial.

Example C63_nonvacuous :
  exists n, parse (b "/* c */ a: a.b # end") = Ok (Some n, []) /\
    text_of (b "/* c */ a: a.b # end") (nrange n) = b "a: a.b" /\
    (* left-over text is reported *)
    exists n2 d, parse (b "a: a.b }") = Ok (Some n2, [d]).
Proof.
  eexists. split; [vm_compute; reflexivity|]. split; [vm_compute; reflexivity|]. do 2 eexists. vm_compute. reflexivity.
Qed.
