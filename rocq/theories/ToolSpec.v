(** Specification vocabulary for C91 and C92. *)
From Verif Require Import Base Diag LexModel AstModel ConnModel EvalModel EvalSpec MsgSpec.

(** ** C91: what a JSON value in the output of the linter says *)
Definition shows_nat (j : json) (n : nat) : Prop := j = JInt (Z.of_nat n).
Definition shows_text (j : json) (s : bytes) : Prop := j = JString s.
(** an enumeration is shown by the place of the value in the list of all values *)
Definition shows_one_of {A} (all : list A) (j : json) (a : A) : Prop := exists n, shows_nat j n /\ nth_error all n = Some a.
Definition shows_cursor (j : json) (c : cursor) : Prop :=
  exists o, j = JObject o /\ has o "line" shows_nat (line c) /\ has o "column" shows_nat (col c) /\ has o "offset" shows_nat (off c).
Definition shows_range (j : json) (r : range) : Prop :=
  exists o, j = JObject o /\ has o "lCur" shows_cursor (lcur r) /\ has o "rCur" shows_cursor (rcur r).
Definition shows_edit (j : json) (e : tedit) : Prop :=
  exists o, j = JObject o /\ has o "range" shows_range (e_range e) /\ has o "newText" shows_text (e_text e).
Definition shows_fix (j : json) (f : fix_) : Prop :=
  exists o, j = JObject o /\ has o "message" shows_text (f_msg f) /\ has o "edits" (says_all shows_edit) (f_edits f).
Definition all_nkinds : list nkind :=
  [NK_PrevDeclared; NK_DuplicateFormal; NK_ThisRecursive; NK_RecConsider; NK_BCommentBegin; NK_ToMachThis].
Definition shows_note (j : json) (n : note) : Prop :=
  exists o, j = JObject o /\ has o "range" shows_range (n_range n) /\ has o "kind" (shows_one_of all_nkinds) (n_kind n) /\
    has o "args" (says_all shows_text) (n_args n) /\
    has o "message" shows_text (nmessage (n_kind n)) /\ has o "sname" shows_text (nsname_of (n_kind n)).
Definition shows_diag (j : json) (d : diag) : Prop :=
  exists o, j = JObject o /\ has o "range" shows_range (d_range d) /\ has o "kind" (shows_one_of all_dkinds) (d_kind d) /\
    has o "severity" (shows_one_of [DS_Fatal; DS_Error; DS_Warning; DS_Info; DS_Hint]) (severity_of (d_kind d)) /\
    has o "args" (says_all shows_text) (d_args d) /\ has o "tag" (says_all (shows_one_of [Faded; Striked])) (d_tags d) /\
    has o "message" shows_text (dmessage (d_kind d)) /\ has o "sname" shows_text (sname_of (d_kind d)) /\
    has o "notes" (says_all shows_note) (d_notes d) /\ has o "fixes" (says_all shows_fix) (d_fixes d).
(** All texts that come from the document are Unicode. *)
Definition text_fix (f : fix_) : Prop := is_text (f_msg f) /\ all_of (fun e => is_text (e_text e)) (f_edits f).
Definition text_diag (d : diag) : Prop :=
  all_of is_text (d_args d) /\ all_of (fun n => all_of is_text (n_args n)) (d_notes d) /\ all_of text_fix (d_fixes d).

(** ** C92: messages of the life cycle *)
Definition is_request (msg : json) (id : json) (m : string) : Prop :=
  exists o, msg = JObject o /\ field o "jsonrpc" (JString (b "2.0")) /\ field o "id" id /\ field o "method" (JString (b m)).
Definition is_notification (msg : json) (m : string) : Prop :=
  exists o, msg = JObject o /\ field o "jsonrpc" (JString (b "2.0")) /\ absent o "id" /\ field o "method" (JString (b m)).
(** The status with which a server has to end: 0 if a shutdown request came before, 1 otherwise. *)
Definition due_status (before : list dev) (z : Z) : Prop :=
  ((exists msg id, In (Message msg) before /\ is_request msg id "shutdown") /\ z = 0%Z) \/
  (~ (exists msg id, In (Message msg) before /\ is_request msg id "shutdown") /\ z = 1%Z).
