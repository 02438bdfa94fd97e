(** Specification vocabulary for the converse of C20: operator expressions over string literals, as text and as trees. *)
From Verif Require Import Base LexModel LexSpec AstModel ActModel ActSpec GramSpec.

(** literals joined by binary operators *)
Inductive optree := Lit (x : bytes) | Infix (k : tkind) (l r : optree).
(** the documented spelling of an operator *)
Definition spelling (k : tkind) : bytes :=
  match find (fun p => tkind_beq (fst p) k) documented with Some (_, v) => v | None => [] end.
(** a string literal; C43 says that it reads as [x] *)
Definition lit (x : bytes) : bytes := b """" ++ escapeNixString x ++ b """".
(** the operands and operators in order, without parentheses *)
Fixpoint optext (t : optree) : bytes :=
  match t with
  | Lit x => lit x
  | Infix k l r => optext l ++ b " " ++ spelling k ++ b " " ++ optext r
  end.
(** the syntax tree with this grouping *)
Fixpoint opshape (t : optree) (n : node) : Prop :=
  match t with
  | Lit x => string_value n x
  | Infix k l r => exists i rg io ro nl nr, n = NBinOp i rg (NOp io ro k) (Some nl) (Some nr) /\ opshape l nl /\ opshape r nr
  end.
(** the operators whose left (right) operand reaches to the left (right) end *)
Fixpoint lefts (t : optree) : list tkind := match t with Lit _ => [] | Infix k l _ => k :: lefts l end.
Fixpoint rights (t : optree) : list tkind := match t with Lit _ => [] | Infix k _ r => k :: rights r end.
(** the grouping is the one the table gives, and no pair of operators is one of those nixd gets wrong *)
Fixpoint by_table (t : optree) : Prop :=
  match t with
  | Lit _ => True
  | Infix k l r => In k binops /\ by_table l /\ by_table r /\
      (forall o, In o (rights l) -> closes (Bin o) (Bin k) /\ ~ misgrouped (Bin o) (Bin k)) /\
      (forall o, In o (lefts r) -> nests (Bin k) (Bin o) /\ ~ misgrouped (Bin k) (Bin o))
  end.
