(** Property C93: what a quick fix does to the document is what its title says. *)
From Verif Require Import Base Diag LexModel AstModel FeatProofs ParseModel ParseSpec ParseInv ParseProofs ParseFacts FixSpec VlaModel VlaClean RefSpec FixFacts.


(** C93, the part that holds, for the fixes of the parser on every document.  A fix titled "insert x" inserts exactly x and takes
    nothing away; "remove ( and )" removes an opening and a closing parenthesis, and the other removals of a token remove
    that token; "replace 'or' with '||'" replaces that word by that text; "convert it to string" puts quotes round an
    address; "convert to `let ... in ...`" removes the brace, the binding of the body, and writes `in` and the text of the
    body's value for the closing brace; and the other removals take text away and write nothing.  All of this happens at
    the part of the document that the diagnostic marks: there, just before or after it, or beginning with it, as FixSpec
    says title by title.  Missing: that "remove extra @" removes the `@`, and that the
    document reads on as intended; these are false (below). *)
Theorem C93_parser_partial :
  forall src tree ds d f, parse src = Ok (tree, ds) -> In d ds -> In f (d_fixes d) -> keeps_promise src (d_range d) (f_msg f) (f_edits f).
Proof. exact C93_parser_partial_proof. Qed.
Print Assumptions C93_parser_partial.

(** The same for the fixes of the analysis of variables. *)
Theorem C93_analysis_partial :
  forall src root ds primops s d f, parse src = Ok (Some root, ds) -> vla primops root = Ok s -> In d (v_diags s) ->
    In f (d_fixes d) -> keeps_promise src (d_range d) (f_msg f) (f_edits f).
Proof. exact C93_analysis_partial_proof. Qed.
Print Assumptions C93_analysis_partial.

(** C93 in full is false: "remove extra @" removes the name and leaves the `@`. *)
Theorem C93_at_refuted :
  exists src tree ds d f, parse src = Ok (tree, ds) /\ In d ds /\ In f (d_fixes d) /\ f_msg f = b "remove extra @" /\
    src = b "a @ : 1" /\ apply_edits src (rev (f_edits f)) = b " @ : 1".
Proof. exact C93_at_refuted_proof. Qed.
Print Assumptions C93_at_refuted.

(** The other fix of the same diagnostic, "insert dummy formals", puts the formals before the `@`, where they do not belong. *)
Theorem C93_formals_refuted :
  exists src tree ds d f, parse src = Ok (tree, ds) /\ In d ds /\ In f (d_fixes d) /\ f_msg f = b "insert dummy formals" /\
    src = b "a @ : 1" /\ apply_edits src (rev (f_edits f)) = b "a{} @ : 1".
Proof. exact C93_formals_refuted_proof. Qed.
Print Assumptions C93_formals_refuted.

(** "remove ( and )" on an application written without a space joins the function and its argument: another variable. *)
Theorem C93_parens_refuted :
  exists src tree ds d f, parse src = Ok (tree, ds) /\ In d ds /\ In f (d_fixes d) /\ f_msg f = b "remove ( and )" /\
    src = b "f(x)" /\ apply_edits src (rev (f_edits f)) = b "fx".
Proof. exact C93_parens_refuted_proof. Qed.
Print Assumptions C93_parens_refuted.

(** "convert to `let ... in ...`" on a set written without a space after `let` makes the keyword and the name one word: what is left is not
    a `let`. *)
Theorem C93_let_refuted :
  exists src tree ds d f, parse src = Ok (tree, ds) /\ In d ds /\ In f (d_fixes d) /\ f_msg f = b "convert to `let ... in ...`" /\
    src = b "let{a=1;body=a;}" /\ apply_edits src (rev (f_edits f)) = b "leta=1;in a".
Proof. exact C93_let_refuted_proof. Qed.
Print Assumptions C93_let_refuted.

(** A binding of `body.x` is taken for a binding of `body`: the value of the attribute replaces the set. *)
Theorem C93_body_refuted :
  exists src tree ds d f, parse src = Ok (tree, ds) /\ In d ds /\ In f (d_fixes d) /\ f_msg f = b "convert to `let ... in ...`" /\
    src = b "let { body.x = 1; }" /\ apply_edits src (rev (f_edits f)) = b "let   in 1".
Proof. exact C93_body_refuted_proof. Qed.
Print Assumptions C93_body_refuted.

(** "remove `inherit` keyword" on an `inherit` with a source and no names leaves the source behind: what is left is no binding. *)
Theorem C93_inherit_refuted :
  exists src tree ds d f, parse src = Ok (tree, ds) /\ In d ds /\ In f (d_fixes d) /\ f_msg f = b "remove `inherit` keyword" /\
    src = b "{ inherit (e); }" /\ apply_edits src (rev (f_edits f)) = b "{  (e) }".
Proof. exact C93_inherit_refuted_proof. Qed.
Print Assumptions C93_inherit_refuted.

(** Documents with such fixes, and what they become. *)
Example C93_parser_partial_example :
  (exists tree ds d f, parse (b "let { a = 1; body = a + 2; }") = Ok (tree, ds) /\ In d ds /\ In f (d_fixes d) /\
     f_msg f = b "convert to `let ... in ...`" /\ apply_edits (b "let { a = 1; body = a + 2; }") (rev (f_edits f)) = b "let  a = 1;  in a + 2") /\
  (exists tree ds d f, parse (b "{ a, ..., b }: 1") = Ok (tree, ds) /\ In d ds /\ In f (d_fixes d) /\
     f_msg f = b "move ellipsis to the tail" /\ apply_edits (b "{ a, ..., b }: 1") (rev (f_edits f)) = b "{ a, b, ... }: 1") /\
  (exists tree ds d f, parse (b "http://x.y") = Ok (tree, ds) /\ In d ds /\ In f (d_fixes d) /\
     f_msg f = b "convert it to string" /\ apply_edits (b "http://x.y") (rev (f_edits f)) = b """http://x.y""").
Proof. split; [|split]; apply offered; vm_compute; reflexivity. Qed.

Example C93_analysis_partial_example : exists src root ds primops s d f, parse src = Ok (Some root, ds) /\
  vla primops root = Ok s /\ In d (v_diags s) /\ In f (d_fixes d) /\ f_msg f = b "remove unused binding".
Proof.
  set (src := b "let x = 1; in 2"). destruct (parse src) as [[[root|] ds]| |] eqn:E; try (vm_compute in E; discriminate E).
  destruct (vla [] root) as [s| |] eqn:V.
  - assert (K : existsb (fun d => existsb (fun f => bytes_eqb (f_msg f) (b "remove unused binding")) (d_fixes d)) (v_diags s) = true).
    { assert (Q : match parse src with Ok (Some r, _) => match vla [] r with Ok s => existsb (fun d => existsb (fun f => bytes_eqb (f_msg f) (b "remove unused binding")) (d_fixes d)) (v_diags s) | _ => false end | _ => false end = true) by (vm_compute; reflexivity).
      rewrite E, V in Q. exact Q. }
    apply existsb_exists in K as (d & Id & K). apply existsb_exists in K as (f & If & K). apply bytes_eqb_eq in K.
    exists src, root, ds, [], s, d, f. auto.
  - exfalso. assert (Q : match parse src with Ok (Some r, _) => match vla [] r with Ok _ => true | _ => false end | _ => false end = true) by (vm_compute; reflexivity).
    rewrite E, V in Q. discriminate Q.
  - exfalso. assert (Q : match parse src with Ok (Some r, _) => match vla [] r with Ok _ => true | _ => false end | _ => false end = true) by (vm_compute; reflexivity).
    rewrite E, V in Q. discriminate Q.
Qed.
