(** Properties C32 and C33: moving up and down the syntax tree. *)
From Verif Require Import Base Diag LexModel AstModel PSupModel SemaModel ParseModel ParseSpec NavModel NavSpec NavProofs IdSpec IdProofs NavFacts.


(** ** C32: parent navigation.  [chain root n l] (NavSpec): [l] is [n], a parent of it, and so on up to the root. *)
Theorem C32_total : forall root, exists m, parents root = Ok m.
Proof. exact C32_total_proof. Qed.
Print Assumptions C32_total.

Theorem C32_parent : forall src ds root m n,
  parse src = Ok (Some root, ds) -> parents root = Ok m -> node_of root n ->
  exists p, pquery m n = Some p /\
    ((n = root /\ p = root) \/ (n <> root /\ node_of root p /\ In n (present (children p)))).
Proof. exact C32_parent_proof. Qed.
Print Assumptions C32_parent.

(** climbing always ends, and returns the first node of the wanted kind on a way up to the root *)
Theorem C32_nearest : forall src ds root m n k,
  parse src = Ok (Some root, ds) -> parents root = Ok m -> node_of root n ->
  exists l, chain root n l /\ upTo m n k = Ok (find (fun p => nodekind_beq (kind_of p) k) l).
Proof. exact C32_nearest_proof. Qed.
Print Assumptions C32_nearest.

Theorem C32_nearest_expression : forall src ds root m n,
  parse src = Ok (Some root, ds) -> parents root = Ok m -> node_of root n ->
  exists l, chain root n l /\ upExpr m n = Ok (find (fun p => isExpr (kind_of p)) l).
Proof. exact C32_nearest_expression_proof. Qed.
Print Assumptions C32_nearest_expression.

(** there is one way up, except from the keyword of a let expression *)
Theorem C32_one_way_up : forall src ds root n l l', parse src = Ok (Some root, ds) ->
  (forall p q, node_of root p -> ~ let_keyword p q n) -> chain root n l -> chain root n l' -> l = l'.
Proof. exact C32_one_way_up_proof. Qed.
Print Assumptions C32_one_way_up.

Theorem C32_root : forall src ds root m n,
  parse src = Ok (Some root, ds) -> parents root = Ok m -> node_of root n ->
  (pis_root m n = true <-> n = root).
Proof. exact C32_root_proof. Qed.
Print Assumptions C32_root.

Example C32_nonvacuous :
  let src := b "{ a, b ? [ 1 ] }: with a; rec { x.${b} = ""${a}""; }" in let t := doc src in
  parse src = Ok (Some t, []) /\ List.length (all_nodes (nsize t) t) = 32 /\
  exists m, parents t = Ok m /\ exists n, node_of t n /\ n <> t /\ upTo m n NK_ExprWith <> Ok None.
Proof.
  cbv zeta. set (t := doc _). split; [vm_compute; reflexivity|]. split; [vm_compute; reflexivity|].
  eexists. split; [vm_compute; reflexivity|]. exists (nth 25 (all_nodes (nsize t) t) t).
  split; [apply (all_nodes_sound (nsize t)); apply nth_In; vm_compute; lia|]. split; vm_compute; discriminate.
Qed.

(** The nearest enclosing node of a kind is not determined for every node: the word `let` is a child of the let
    expression and also of the set of its bindings. *)
Theorem C32_two_ways_up : exists src root n l l',
  parse src = Ok (Some root, []) /\ chain root n l /\ chain root n l' /\ l <> l'.
Proof. exact C32_two_ways_up_proof. Qed.
Print Assumptions C32_two_ways_up.

(** ** C33: the node under the cursor *)
Theorem C33_descend : forall root q, exists o, descend root q = Ok o /\
  match o with
  | Some n => reached root q n /\ forall c, In c (present (children n)) -> ~ contains (prange_of (nrange c)) q
  | None => ~ contains (prange_of (nrange root)) q
  end.
Proof. exact C33_descend_proof. Qed.
Print Assumptions C33_descend.

Example C33_nonvacuous :
  let t := doc (b "{ a = [ bc ]; }") in
  exists n, descend t ((0, 9), (0, 10)) = Ok (Some n) /\ kind_of n = NK_Identifier /\ off (nl n) = 8 /\
  descend t ((0, 9), (1, 0)) = Ok None.
Proof.
  cbv zeta. eexists. split; [vm_compute; reflexivity|]. split; [reflexivity|]. split; vm_compute; reflexivity.
Qed.
