(** Model of libnixf/src/Sema/ParentMap.cpp.  A node's address is its identity [nid]; a const Node * is the node. *)
From Verif Require Import Base Diag LexModel AstModel.

(** ParentMap.h:16 std::map<const Node *, const Node *> *)
Definition pmap := list (nat * node).
Fixpoint pget (k : nat) (m : pmap) : option node :=
  match m with
  | [] => None
  | (k', v) :: m' => if Nat.eqb k k' then Some v else pget k m'
  end.
(** std::map::insert: an entry that is there is kept *)
Definition pinsert (k : nat) (v : node) (m : pmap) : pmap :=
  match pget k m with Some _ => m | None => (k, v) :: m end.

(** ParentMap.cpp:5-11 dfs, the recursion bounded by [fuel] *)
Fixpoint pdfs (fuel : nat) (n : node) (parent : node) (m : pmap) : res pmap :=
  match fuel with
  | 0 => OutOfFuel
  | S f =>
      fold_left (fun r ch => let* m' := r in match ch with Some c => pdfs f c n m' | None => Ok m' end)
        (children n) (Ok (pinsert (nid n) parent m))
  end.

(** ParentMap.cpp:37-40 runOnAST *)
Definition parents (root : node) : res pmap := pdfs (nsize root) root root [].

(** ParentMap.cpp:13-15 query *)
Definition pquery (m : pmap) (n : node) : option node := pget (nid n) m.

(** ParentMap.cpp:42-48 isRoot *)
Definition pis_root (m : pmap) (n : node) : bool :=
  match pquery m n with Some p => Nat.eqb (nid p) (nid n) | None => false end.

(** ParentMap.cpp:17-35 upExpr and upTo, which differ in the test; the recursion bounded by [fuel] *)
Fixpoint pup (fuel : nat) (m : pmap) (test : nodekind -> bool) (n : node) : res (option node) :=
  match fuel with
  | 0 => OutOfFuel
  | S f =>
      if test (kind_of n) then Ok (Some n) else
      match pquery m n with
      | None => Ok None
      | Some p => if Nat.eqb (nid p) (nid n) then Ok None else pup f m test p
      end
  end.
Definition upExpr (m : pmap) (n : node) : res (option node) := pup (S (List.length m)) m isExpr n.
Definition upTo (m : pmap) (n : node) (k : nodekind) : res (option node) :=
  pup (S (List.length m)) m (fun k' => nodekind_beq k' k) n.
