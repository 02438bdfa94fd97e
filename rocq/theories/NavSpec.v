(** Navigation in the syntax tree, stated over the tree alone. *)
From Verif Require Import Base Diag LexModel AstModel ParseSpec.

(** [chain root n l]: [l] lists [n], a node having [n] as a child, a node having that one as a child, and so on up to
    the root *)
Inductive chain (root : node) : node -> list node -> Prop :=
| chain_root : chain root root [root]
| chain_up n p l : In n (present (children p)) -> chain root p l -> chain root n (n :: l).

(** different nodes of the tree have different identities (addresses) *)
Definition identified (root : node) : Prop :=
  forall x y, node_of root x -> node_of root y -> nid x = nid y -> x = y.

(** no node of the tree is a child of two nodes *)
Definition unshared (root : node) : Prop :=
  forall n p q, node_of root p -> node_of root q -> In n (present (children p)) -> In n (present (children q)) -> p = q.

(** positions are ordered by line, then by column; a range of positions contains another *)
Definition before (p q : pos) : Prop := fst p < fst q \/ (fst p = fst q /\ snd p <= snd q).
Definition contains (r q : prange) : Prop := before (fst r) (fst q) /\ before (snd q) (snd r).
(** [reached root q n]: [n] is below the root, and it and every node above it contains [q] *)
Definition reached (root : node) (q : prange) (n : node) : Prop :=
  exists l, chain root n l /\ Forall (fun m => contains (prange_of (nrange m)) q) l.
