(** Properties C20, C21 and C68: the tree of a document without errors is what the grammar says. *)
From Verif Require Import Base Diag LexModel LexSpec LexProofs LexLongSpec AstModel PSupModel SemaModel ParseModel ParseSpec ActSpec GramSpec GramBase GramStep GramProofs GramSub OpSpec ReadOp GramFacts.


(** C68.  If the parser reports no error for a document, then the document is the items of some derivation of the tree
    in the grammar of Nix (GramSpec), in this order, separated by white space and comments.  So nothing is lost,
    invented or reordered: every token has its place in the tree.
    Partial: the grammar is that of Nix with four productions added (marked (!) in GramSpec, and refuted below), and
    the misgrouped operators of C20; the converse (that every document of the grammar is accepted) is not claimed. *)
Theorem C68_partial : forall src n ds, parse src = Ok (Some n, ds) -> no_errors ds ->
  exists its, layout its src /\ gram false (Expr n) its.
Proof. exact C68_partial_proof. Qed.
Print Assumptions C68_partial.

(** The added productions: [e ?] without attribute path, formals that begin with a comma, [${] inside a path read as
    text.  (The fourth, escapes in indented strings, is C21_refuted.) *)
Theorem C68_refuted :
  (exists n ds, parse (b "a ?") = Ok (Some n, ds) /\ no_errors ds /\ forall its, ~ gram true (Expr n) its) /\
  (exists n ds, parse (b "x@{ , a }: a") = Ok (Some n, ds) /\ no_errors ds /\ forall its, ~ gram true (Expr n) its) /\
  (exists n ds, parse (b "./a${x}${${y}") = Ok (Some n, ds) /\ no_errors ds /\
     forall its, layout its (b "./a${x}${${y}") -> ~ gram true (Expr n) its).
Proof. exact C68_refuted_proof. Qed.
Print Assumptions C68_refuted.

Example C68_nonvacuous : check (fun _ => true)
  (b "let x = a.b or 1; inherit (y) z; in if x == 2 then { inherit x; ""s${x}\n"" = ./p${q}/r; } else y@{ z ? 1, ... }: z x -> !a # end") = true.
Proof. vm_compute. reflexivity. Qed.

(** C72.  If the parser reports nothing for a document, then the range of every expression (except operator expressions
    that are operands of other operators), attribute name, attribute path and binding is exactly the text of the items it
    is derived from: it starts where its first item starts and ends where its last item ends, and the text between is
    these items with white space and comments.  (In [gram_at false (spans src)] this is asked of every such node of the
    derivation; the last conjunct says it of the root.)
    Partial: operands of operators are not covered, and the grammar is the one of C68_partial. *)
Theorem C72_partial : forall src n, parse src = Ok (Some n, []) ->
  exists its, layout its src /\ gram_at false (spans src) (Expr n) its /\ spans src n its.
Proof. exact C72_partial_proof. Qed.
Print Assumptions C72_partial.

(** C72, for the bindings of a document, wherever they are nested: a binding is where its range says. *)
Theorem C72_bindings_partial : forall src n m, parse src = Ok (Some n, []) -> within n m ->
  match m with NBinding _ _ _ _ _ | NInherit _ _ _ _ => True | _ => False end ->
  exists its, gram_at false (spans src) (Bind m) its /\ spans src m its.
Proof. exact C72_bindings_partial_proof. Qed.
Print Assumptions C72_bindings_partial.

Example C72_nonvacuous : check (fun _ => true)
  (b "let x = a.b or 1; inherit (y) z; in if x == 2 then { inherit x; ""s${x}\n"" = ./p${q}/r; } else y@{ z ? 1, ... }: z x -> !a # end") = true /\
  match parse (b "{ a . b = x.y /* c */ ; inherit (e) z; }") with Ok (Some _, []) => true | _ => false end = true.
Proof. vm_compute. auto. Qed.

(** C20.  In a document without errors, the operands of every operator are the ones the documented table says.
    Partial: except for the pairs of operators of [misgrouped], for which this is refuted below. *)
Theorem C20_partial : forall src n ds m, parse src = Ok (Some n, ds) -> no_errors ds -> within n m ->
  grouped misgrouped m.
Proof. exact C20_partial_proof. Qed.
Print Assumptions C20_partial.

(** A chain of non-associative operators of the same level is reported as an error (the operand is not in parentheses,
    which would be a node of its own). *)
Theorem C20_nonassoc : forall src n ds i r io ro k k' lv j q jo qo l' r' x,
  parse src = Ok (Some n, ds) ->
  documented_op (Bin k) = Some (lv, NonA) -> documented_op (Bin k') = Some (lv, NonA) ->
  (within n (NBinOp i r (NOp io ro k) (Some (NBinOp j q (NOp jo qo k') (Some l') (Some r'))) (Some x)) \/
   within n (NBinOp i r (NOp io ro k) (Some x) (Some (NBinOp j q (NOp jo qo k') (Some l') (Some r'))))) ->
  ~ no_errors ds.
Proof. exact C20_nonassoc_proof. Qed.
Print Assumptions C20_nonassoc.

(** The operators that are grouped against the table, with no error reported. *)
Theorem C20_refuted : forall src, In src
  [b "a / b / c"; b "a * b / c"; b "!a // b"; b "-a ? b"; b "a ? b ? c"; b "a |> b |> c"; b "a <| b <| c"] ->
  exists n ds, parse src = Ok (Some n, ds) /\ no_errors ds /\ ~ grouped (fun _ _ => False) n.
Proof. exact C20_refuted_proof. Qed.
Print Assumptions C20_refuted.

Example C20_nonvacuous : check groupedb (b "a + b * c == d && !e ? f -> x // y") = true.
Proof. vm_compute. reflexivity. Qed.
Example C20_nonassoc_nonvacuous :
  match parse (b "a == b == c") with
  | Ok (Some (NBinOp _ _ (NOp _ _ tok_op_eq) (Some _) (Some (NBinOp _ _ (NOp _ _ tok_op_eq) (Some _) (Some _)))), _) => True
  | _ => False
  end.
Proof. vm_compute. exact I. Qed.

(** The converse, for string literals joined by binary operators: whatever the operators and however many, the text
    parses without diagnostics to the tree that the table gives.
    Partial: other operands, prefix operators, [?], and the pairs of [misgrouped]. *)
Theorem C20_accepts_partial : forall t, by_table t -> exists n, parse (optext t) = Ok (Some n, []) /\ opshape t n.
Proof. exact C20_accepts_partial_proof. Qed.
Print Assumptions C20_accepts_partial.
Example C20_accepts_nonvacuous :
  let t := Infix tok_op_impl (Infix tok_op_ge (Lit (b "a")) (Infix tok_op_add (Infix tok_op_negate (Lit (b "b")) (Lit (b "c"))) (Infix tok_op_mul (Lit (b "d")) (Lit [])))) (Infix tok_op_impl (Lit (b "e")) (Lit (b "f"))) in
  optext t = b """a"" >= ""b"" - ""c"" + ""d"" * """" -> ""e"" -> ""f""" /\ by_table t.
Proof.
  split; [vm_compute; reflexivity|].
  assert (D : forall k1 k2 n1 a1 n2 a2, documented_op (Bin k1) = Some (n1, a1) -> documented_op (Bin k2) = Some (n2, a2) -> n2 < n1 -> closes (Bin k1) (Bin k2)).
  { intros. exists n1, a1, n2, a2. auto. }
  assert (N : forall k1 k2 n1 a1 n2 a2, documented_op (Bin k1) = Some (n1, a1) -> documented_op (Bin k2) = Some (n2, a2) -> n1 < n2 -> nests (Bin k1) (Bin k2)).
  { intros. exists n1, a1, n2, a2. auto. }
  cbn [by_table lefts rights].
  repeat match goal with
  | |- _ /\ _ => split
  | |- True => exact I
  | |- In _ binops => unfold binops; simpl; tauto
  | |- forall o, In o [] -> _ => intros o []
  | |- forall o, In o (_ :: _) -> _ => intros o [<-|H]; [split; [|intros M; inversion M; match goal with X : In _ _ |- _ => simpl in X; intuition discriminate end]|revert o H]
  | |- closes _ _ => first [eapply D; [reflexivity|reflexivity|lia]|exists 9, LeftA, 9, LeftA; split; [reflexivity|split; [reflexivity|right; repeat split]]]
  | |- nests _ _ => first [eapply N; [reflexivity|reflexivity|lia]|exists 2, RightA, 2, RightA; split; [reflexivity|split; [reflexivity|right; repeat split]]]
  end.
Qed.

(** C21.  In a document without errors, every string node stands for a literal of the document, whose inside is made
    up item by item of the node's text and interpolations.
    Partial: an escape in an indented string may be read as a single quote (refuted below); indentation is not
    removed from indented strings. *)
Theorem C21_partial : forall src n ds i r ip rp fs, parse src = Ok (Some n, ds) -> no_errors ds ->
  within n (NString i r (NParts ip rp fs)) ->
  exists before its after, layout (before ++ its ++ after) src /\
    ((exists v, its = [E tok_uri v] /\ flatten fs = map inl v) \/
     (exists v1 inside v2, its = [E tok_dquote v1] ++ inside ++ [It true PS_String tok_dquote v2] /\
        contents (fun _ _ => False) PS_String inside (flatten fs)) \/
     (exists v1 inside v2, its = [E tok_quote2 v1] ++ inside ++ [It true PS_IndString tok_quote2 v2] /\
        contents (fun _ u => u = b "'") PS_IndString inside (flatten fs))).
Proof. exact C21_partial_proof. Qed.
Print Assumptions C21_partial.

(** In Nix [''a'''b''] is the string [a''b], [''a''$b''] is [a$b], and [''a''\nb''] contains a line feed; nixd reads
    [a'b] each time. *)
Theorem C21_refuted : forall src v u, In (src, v, u) [(b "''a'''b''", b "'''", b "''"); (b "''a''$b''", b "''$", b "$"); (b "''a''\nb''", b "''\n", [lf])] ->
  let inside := [It true PS_IndString tok_string_part (b "a"); It true PS_IndString tok_string_escape v; It true PS_IndString tok_string_part (b "b")] in
  layout ([E tok_quote2 (b "''")] ++ inside ++ [It true PS_IndString tok_quote2 (b "''")]) src /\
  contents (fun _ _ => False) PS_IndString inside (map inl (b "a" ++ u ++ b "b")) /\
  exists n ds, parse src = Ok (Some n, ds) /\ no_errors ds /\ string_value n (b "a'b") /\ b "a'b" <> b "a" ++ u ++ b "b".
Proof. exact C21_refuted_proof. Qed.
Print Assumptions C21_refuted.

Example C21_nonvacuous : check (fun n => match n with NString _ _ (NParts _ _ [inl _; inl _; inr _; inl _]) => true | _ => false end) (b """a\n${b}$${c}""") = true.
Proof. vm_compute. reflexivity. Qed.
