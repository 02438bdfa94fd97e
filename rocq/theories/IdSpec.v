(** When a node of the tree may be a child of two nodes, stated over the tree alone, and what a table of builtins is. *)
From Verif Require Import Base Diag LexModel AstModel.

(** [let_keyword p q n]: [p] is a let expression, [q] is the set of its bindings, [n] is its keyword `let` *)
Definition let_keyword (p q n : node) : Prop :=
  match p with
  | NLet _ _ kl _ _ (Some a) | NLegacyLet _ _ kl (Some a) => q = a /\ n = kl
  | _ => False
  end.

(** the names in scope everywhere besides the builtins of the table *)
Definition reserved : list bytes :=
  [b "true"; b "false"; b "null"; b "derivation"; b "builtins"; b "__curPos"; b "__currentTime"; b "__currentSystem";
   b "__nixVersion"; b "__storeDir"; b "__langVersion"; b "__importNative"; b "__traceVerbose"; b "__nixPath"].

(** A table of builtins, each with the flag "internal": no name occurs twice or is one of the above. *)
Definition plain_table (primops : list (bytes * bool)) : Prop :=
  NoDup (map fst primops) /\ (forall x, In x (map fst primops) -> ~ In x reserved).
