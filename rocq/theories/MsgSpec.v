(** Specification vocabulary for C86 - C90. *)
From Verif Require Import Base TextModel TextSpec UriModel UriSpec ConnModel EvalModel EvalSpec MsgModel.
From Coq Require Import Sorted.

(** ** JSON objects *)
(** [v] is the value of the field [k]; there is no field [k]. *)
Definition field (o : list (bytes * json)) (k : string) (v : json) : Prop :=
  exists before after, o = before ++ (b k, v) :: after /\ ~ In (b k) (map fst before).
Definition absent (o : list (bytes * json)) (k : string) : Prop := ~ In (b k) (map fst o).
(** A field that may be missing or null. *)
Definition may_have (o : list (bytes * json)) (k : string) (P : json -> Prop) : Prop :=
  absent o k \/ field o k JNull \/ exists v, field o k v /\ v <> JNull /\ P v.

(** A field and what its value says; an array and what its elements say. *)
Definition has {A} (o : list (bytes * json)) (k : string) (says : json -> A -> Prop) (a : A) : Prop := exists v, field o k v /\ says v a.
Definition says_all {A} (says : json -> A -> Prop) (j : json) (l : list A) : Prop := exists js, j = JArray js /\ Forall2 says js l.

(** ** C86 *)
(** What a client can be sent: text is Unicode, files have URIs that lead back to them, the files of an edit are told apart. *)
Definition plain_edit (e : textEdit) : Prop := is_text (te_text e) /\ is_text (te_annotation e).
Definition plain_documentEdit (d : documentEdit) : Prop := path_survives (de_file d) /\ all_of plain_edit (de_edits d).
Definition before_ (x y : bytes * list textEdit) : Prop := bytes_ltb (fst x) (fst y) = true.
Definition plain_changes (l : list (bytes * list textEdit)) : Prop :=
  StronglySorted before_ l /\ all_of (fun p => is_text (fst p) /\ all_of plain_edit (snd p)) l.
Definition edits_text (c : docChange) : Prop := exists d, c = Edits d /\ plain_documentEdit d.
(** The edit changes text only: it creates, renames and deletes no file. *)
Definition text_only (w : workspaceEdit) : Prop :=
  if_present plain_changes (we_changes w) /\ if_present (all_of edits_text) (we_documentChanges w).
Definition sendable (a : codeAction) : Prop :=
  is_text (ca_title a) /\ if_present is_text (ca_kind a) /\ if_present text_only (ca_edit a).
(** The address in the action's data. *)
Definition address (a : codeAction) (u : bytes) : Prop :=
  exists o, ca_data a = Some (JObject o) /\ field o "noogleUrl" (JString u).

(** ** C88: what a client's message says, whatever other fields it has *)
Definition says_number (j : json) (z : Z) : Prop := j = JInt z \/ j = JDouble (Some z).
Definition says_text (j : json) (s : bytes) : Prop := j = JString s.
Definition says_file (j : json) (f : bytes) : Prop := exists u, j = JString u /\ fileOfUri u = Ok (Some f).
Definition says_position (j : json) (p : lpos) : Prop :=
  exists o l c, j = JObject o /\ field o "line" l /\ says_number l (p_line p) /\ field o "character" c /\ says_number c (p_char p).
Definition says_range (j : json) (r : lpos * lpos) : Prop :=
  exists o s e, j = JObject o /\ field o "start" s /\ says_position s (fst r) /\ field o "end" e /\ says_position e (snd r).
Definition says_document (j : json) (f : bytes) : Prop := exists o u, j = JObject o /\ field o "uri" u /\ says_file u f.
(** An optional field with what it says. *)
Definition says_maybe {A} (o : list (bytes * json)) (k : string) (says : json -> A -> Prop) (x : option A) : Prop :=
  match x with
  | None => absent o k \/ field o k JNull
  | Some a => exists v, field o k v /\ says v a
  end.
Definition says_at (j : json) (f : bytes) (p : lpos) : Prop :=
  exists o d q, j = JObject o /\ field o "textDocument" d /\ says_document d f /\ field o "position" q /\ says_position q p.
Definition says_rename (j : json) (f : bytes) (p : lpos) (name : bytes) : Prop :=
  says_at j f p /\ exists o n, j = JObject o /\ field o "newName" n /\ says_text n name.
Definition says_open (j : json) (f : bytes) (v : Z) (text : bytes) : Prop :=
  exists o d i u l w t, j = JObject o /\ field o "textDocument" d /\ d = JObject i /\ field i "uri" u /\ says_file u f /\
    field i "languageId" (JString l) /\ field i "version" w /\ says_number w v /\ field i "text" t /\ says_text t text.
Definition is_int32 (j : json) (z : Z) : Prop := says_number j z /\ (0 <= z < 2147483648)%Z.
Definition says_change (j : json) (c : change) : Prop :=
  exists o t, j = JObject o /\ says_maybe o "range" says_range (c_range c) /\
    says_maybe o "rangeLength" is_int32 (c_rangeLength c) /\ field o "text" t /\ says_text t (c_text c).
Definition says_changes (j : json) (f : bytes) (v : Z) (cs : list change) : Prop :=
  exists o d i u w l, j = JObject o /\ field o "textDocument" d /\ d = JObject i /\ field i "uri" u /\ says_file u f /\
    field i "version" w /\ says_number w v /\ field o "contentChanges" (JArray l) /\ Forall2 says_change l cs /\
    absent o "wantDiagnostics" /\ absent o "forceRebuild".
(** A diagnostic of the protocol: its code is text or a number. *)
Definition is_code (j : json) : Prop := (exists s, j = JString s) \/ (exists z, says_number j z).
Definition is_text_code (j : json) : Prop := exists s, j = JString s.
Definition says_diagnostic (code : json -> Prop) (j : json) (d : (lpos * lpos) * bytes) : Prop :=
  exists o r m, j = JObject o /\ field o "range" r /\ says_range r (fst d) /\ field o "message" m /\ says_text m (snd d) /\
    may_have o "severity" (fun v => exists z, says_number v z) /\ may_have o "code" code /\
    may_have o "source" (fun v => exists s, v = JString s) /\ absent o "category".
Definition says_codeAction (code : json -> Prop) (j : json) (f : bytes) (r : lpos * lpos) (ds : list ((lpos * lpos) * bytes))
    (kinds : list bytes) : Prop :=
  exists o d q x c l, j = JObject o /\ field o "textDocument" d /\ says_document d f /\ field o "range" q /\ says_range q r /\
    field o "context" x /\ x = JObject c /\ field c "diagnostics" (JArray l) /\ Forall2 (says_diagnostic code) l ds /\
    ((kinds = [] /\ absent c "only") \/ has c "only" (says_all says_text) kinds).

(** *** What a code action and a completion item on the wire say (C86, C87) *)
(** a text that may be left out if it is empty, a number that may be left out if it is 0 *)
Definition says_texts (o : list (bytes * json)) (k : string) (s : bytes) : Prop := (s = [] /\ absent o k) \/ field o k (JString s).
Definition says_int (o : list (bytes * json)) (k : string) (z : Z) : Prop := (z = 0%Z /\ absent o k) \/ has o k says_number z.
Definition says_flag (o : list (bytes * json)) (k : string) (x : bool) : Prop :=
  (x = false /\ absent o k) \/ (x = true /\ field o k (JBool true)).
Definition says_edit (j : json) (e : textEdit) : Prop :=
  exists o, j = JObject o /\ has o "range" says_range (te_range e) /\ has o "newText" says_text (te_text e) /\
    says_texts o "annotationId" (te_annotation e).
Definition says_documentEdit (j : json) (d : documentEdit) : Prop :=
  exists o t, j = JObject o /\ field o "textDocument" (JObject t) /\ has t "uri" says_file (de_file d) /\
    says_maybe t "version" says_number (de_version d) /\ has o "edits" (says_all says_edit) (de_edits d).
Definition says_docChange (j : json) (c : docChange) : Prop := exists d, c = Edits d /\ says_documentEdit j d.
Definition says_mapping (j : json) (l : list (bytes * list textEdit)) : Prop :=
  exists o, j = JObject o /\ Forall2 (fun p q => fst p = fst q /\ says_all says_edit (snd p) (snd q)) o l.
Definition says_workspaceEdit (j : json) (w : workspaceEdit) : Prop :=
  exists o, j = JObject o /\ says_maybe o "changes" says_mapping (we_changes w) /\
    says_maybe o "documentChanges" (says_all says_docChange) (we_documentChanges w).
Definition says_action (j : json) (a : codeAction) : Prop :=
  exists o, j = JObject o /\ has o "title" says_text (ca_title a) /\ says_maybe o "kind" says_text (ca_kind a) /\
    says_flag o "isPreferred" (ca_preferred a) /\ says_maybe o "edit" says_workspaceEdit (ca_edit a) /\
    says_maybe o "data" eq (ca_data a).
Definition says_markup (j : json) (m : bool * bytes) : Prop :=
  exists o, j = JObject o /\ has o "kind" says_text (if fst m then b "markdown" else b "plaintext") /\ has o "value" says_text (snd m).
Definition says_item (j : json) (i : item) : Prop :=
  exists o, j = JObject o /\ has o "label" says_text (ci_label i) /\ says_int o "kind" (ci_kind i) /\
    says_texts o "detail" (ci_detail i) /\ says_maybe o "documentation" says_markup (ci_documentation i) /\
    says_texts o "sortText" (ci_sortText i) /\ says_texts o "filterText" (ci_filterText i) /\ says_texts o "insertText" (ci_insertText i) /\
    says_int o "insertTextFormat" (ci_format i) /\ says_maybe o "textEdit" says_edit (ci_textEdit i) /\
    ((ci_additional i = [] /\ absent o "additionalTextEdits") \/ has o "additionalTextEdits" (says_all says_edit) (ci_additional i)) /\
    says_flag o "deprecated" (ci_deprecated i) /\ has o "data" says_text (ci_data i).
(** An item with a kind and a format, as the server makes them for options; its texts are Unicode. *)
Definition plain_item (i : item) : Prop :=
  ci_label i <> [] /\ all_of is_text [ci_label i; ci_detail i; ci_sortText i; ci_filterText i; ci_insertText i; ci_data i] /\
  (ci_kind i <> 0 /\ is_int (ci_kind i))%Z /\ (ci_format i <> 0 /\ is_int (ci_format i))%Z /\
  if_present (fun m => snd m <> [] /\ is_text (snd m)) (ci_documentation i) /\ if_present plain_edit (ci_textEdit i) /\
  all_of plain_edit (ci_additional i) /\ ci_deprecated i = false.

(** ** C89: how a client reads a folding range: a line, and the column or, if it is missing, the length of that line *)
Definition reads_column (o : list (bytes * json)) (k : string) (len : Z) (c : Z) : Prop :=
  (exists v, field o k v /\ says_number v c) \/ (absent o k /\ c = len).
Definition reads_folding (width : Z -> Z) (j : json) (s e : lpos) : Prop :=
  exists o l l', j = JObject o /\ field o "startLine" l /\ says_number l (p_line s) /\
    reads_column o "startCharacter" (width (p_line s)) (p_char s) /\
    field o "endLine" l' /\ says_number l' (p_line e) /\ reads_column o "endCharacter" (width (p_line e)) (p_char e).

(** ** C90: the text that a client inserts for a snippet when the user accepts every default.  [`\x`] is x for the special
    characters, [`$n`] is a tab stop without text, [`${n:text}`] a tab stop with the default [text]. *)
Definition is_digit (c : ascii) : bool := N.leb 48 (N_of_ascii c) && N.leb (N_of_ascii c) 57.
Inductive reading := Plain | AfterBackslash | AfterDollar | TabStop | Opening.
Definition special (c : ascii) : bool := Ascii.eqb c "\" || Ascii.eqb c "$" || Ascii.eqb c "}".
Fixpoint inserted (m : reading) (open : nat) (s : bytes) : bytes :=
  match s with
  | [] => match m with AfterBackslash => b "\" | AfterDollar => b "$" | _ => [] end
  | c :: s' =>
      let plain :=
        if Ascii.eqb c "\" then inserted AfterBackslash open s'
        else if Ascii.eqb c "$" then inserted AfterDollar open s'
        else if Ascii.eqb c "}" then match open with 0 => c :: inserted Plain 0 s' | S k => inserted Plain k s' end
        else c :: inserted Plain open s' in
      match m with
      | Plain => plain
      | AfterBackslash => if special c then c :: inserted Plain open s' else "\"%char :: plain
      | AfterDollar =>
          if Ascii.eqb c "{" then inserted Opening open s'
          else if is_digit c then inserted TabStop open s'
          else "$"%char :: plain
      | TabStop => if is_digit c then inserted TabStop open s' else plain
      | Opening => if Ascii.eqb c ":" then inserted Plain (S open) s' else inserted Opening open s'
      end
  end.
(** Names that need no escape in a snippet. *)
Definition no_special (s : bytes) : Prop := ~ In "\"%char s /\ ~ In "$"%char s.
