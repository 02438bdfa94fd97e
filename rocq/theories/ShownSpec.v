(** C95: the variables of a document that an editor colours. *)
From Verif Require Import Base Diag LexModel AstModel GramSpec.

(** Parts of a document in which variables may be left without colour: strings with interpolations, the parameters of
    functions (with their defaults), `inherit`, and dynamic names. *)
Definition dim (n : node) : bool :=
  match n with NString _ _ _ | NLambdaArg _ _ _ _ | NInherit _ _ _ _ | NAttrName _ _ _ => true | _ => false end.
(** [in_view n m]: [m] is written below [n] and not below such a part *)
Inductive in_view : node -> node -> Prop :=
| view_self n : in_view n n
| view_part n c m : dim n = false -> In c (parts_of n) -> in_view c m -> in_view n m.
