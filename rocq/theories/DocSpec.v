(** For whole documents: the reports of the semantic actions on sets, formals and arguments. *)
From Verif Require Import Base Diag LexModel AstModel.

(** the kinds of report that are about the names of a set, of a list of formals, or of a lambda argument *)
Definition about_names (d : diag) : bool :=
  match d_kind d with
  | DK_DuplicatedAttrName | DK_DynamicInherit | DK_MergeDiffRec
  | DK_FormalMissingComma | DK_FormalExtraEllipsis | DK_FormalMisplacedEllipsis | DK_EmptyFormal | DK_DuplicatedFormal
  | DK_DuplicatedFormalToArg => true
  | _ => false
  end.
(** [news] are reported for the document, one after the other: no other report about names comes between them *)
Definition in_a_row (news ds : list diag) : Prop := exists l1 l2, filter about_names ds = l1 ++ news ++ l2.
