(** Property C76: code actions end normally on every document, with or without errors, and their edits lie in it. *)
From Verif Require Import Base Diag LexModel LexSpec AstModel PSupModel SemaModel SemaSpec ParseModel ParseSpec NavModel NavSpec NavProofs NavFacts VlaModel VlaSpec ActModel BindModel RefModel RefFacts SafeProofs SafeRef SafeFacts.

(** ** C76: code actions end normally and edit text of the document.
    Wherever the cursor is in a parsed document, also one with errors, the actions on bindings end without a failed
    assertion, an access outside the text or an endless loop, and the range of every edit they offer lies in the document.
    (The map of parents exists for every document by C32_total.) *)
Theorem C76_bindings : forall src root ds m n,
  parse src = Ok (Some root, ds) -> parents root = Ok m -> node_of root n ->
  (exists o, convertToInheritAt src m n = Ok o /\ forall e, o = Some e -> range_in src (e_range e)) /\
  (exists o, inheritToBindingAt src m n = Ok o /\ forall e, o = Some e -> range_in src (e_range e)) /\
  (exists o, flattenAttrsAt src m n = Ok o /\ forall e, o = Some e -> range_in src (e_range e)) /\
  (exists l, packAttrsAt src m n = Ok l /\ forall e, In e l -> range_in src (e_range e)).
Proof. exact C76_bindings_proof. Qed.
Print Assumptions C76_bindings.
(** The same for the actions on strings and on attribute names. *)
Theorem C76_strings : forall src root ds m n,
  parse src = Ok (Some root, ds) -> parents root = Ok m -> node_of root n ->
  (exists o, stringAt m n = Ok o /\
     forall str, o = Some str -> exists p, rewriteString src str = Ok p /\ forall r t, p = Some (r, t) -> range_in src r) /\
  (exists o, attrNameAt m n = Ok o /\ forall a r t, o = Some a -> attrNameAction a = Some (r, t) -> range_in src r).
Proof. exact C76_strings_proof. Qed.
Print Assumptions C76_strings.
(** The same for the actions that use the variable analysis (which completes on every document by C74): the pointers it
    keeps lead to nodes of the document.  An added formal goes to a place of the document or right behind the left edge of
    an empty list of formals. *)
Theorem C76_analysis : forall src root ds primops s m file n,
  parse src = Ok (Some root, ds) -> vla primops root = Ok s -> parents root = Ok m -> node_of root n ->
  (exists o, withToLet root s m src n = Ok o /\ forall e, o = Some e -> range_in src (e_range e)) /\
  (exists o, extractToFile s m src file n = Ok o /\ forall t e, o = Some (t, e) -> range_in src (e_range e)) /\
  (exists o, addToFormals s m n = Ok o /\ forall pos t, o = Some (pos, t) ->
     pos <= List.length src \/ exists f, node_of root f /\ kind_of f = NK_Formals /\ children f = [] /\ pos = S (off (nl f))).
Proof. exact C76_analysis_proof. Qed.
Print Assumptions C76_analysis.
Example C76_nonvacuous : let src := b "{ p = with x; { a = { b = y; }; s = ""t""; }; q.r = x.r; z = " in
  (exists d ds, parse src = Ok (Some (doc src), d :: ds)) /\ vla table (doc src) = Ok (analysed src) /\ parents (doc src) = Ok (ups src) /\
  node_of (doc src) (node_no src 14) /\ node_of (doc src) (node_no src 7) /\
  (exists r, flattenAttrsAt src (ups src) (node_no src 14) = Ok (Some (TEdit r (b "a.b = y;")))) /\
  (exists r, withToLet (doc src) (analysed src) (ups src) src (node_no src 7) =
     Ok (Some (TEdit r (b "let inherit (x) y; in { a = { b = y; }; s = ""t""; }")))).
Proof.
  cbv zeta. set (src := b "{ p = with x; { a = { b = y; }; s = ""t""; }; q.r = x.r; z = ").
  split; [eexists; eexists; vm_compute; reflexivity|]. split; [apply sound_ok; vm_compute; reflexivity|].
  split; [apply sound_ok; vm_compute; reflexivity|]. split; [apply node_no_in; apply Nat.ltb_lt; vm_compute; reflexivity|].
  split; [apply node_no_in; apply Nat.ltb_lt; vm_compute; reflexivity|]. split; eexists; vm_compute; reflexivity.
Qed.
