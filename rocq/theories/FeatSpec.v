(** Specification vocabulary for C36 to C39 and C55: LSP positions in a document, the nodes a position touches, the
    decoding of semantic tokens, nesting of document symbols, foldable constructs, published diagnostics. *)
From Verif Require Import Base Diag LexModel LexSpec AstModel ParseSpec TextModel TextSpec VlaModel FeatModel.

(** Order of LSP positions; a range inside another. *)
Definition lle (p q : lpos) : Prop := (p_line p < p_line q \/ (p_line p = p_line q /\ p_char p <= p_char q))%Z.
Definition linside (inner outer : lrange) : Prop := lle (l_start outer) (l_start inner) /\ lle (l_end inner) (l_end outer).

(** [r] is what LSP calls the range between the bytes [i] and [j] of the document: each end has as line the number of
    line feeds before it and as column the UTF-16 length of the rest. *)
Definition lsp_range (src : bytes) (i j : nat) (r : lrange) : Prop :=
  l_start r = offsetToPosition src i /\ l_end r = offsetToPosition src j.

(** ** C36 *)
Definition ascii_text (d : text) : Prop := Forall (fun x => (x < 128)%N) d.
(** the part of the document's current line before the place *)
Definition line_before (before ln : text) : Prop :=
  exists above, before = above ++ ln /\ ~ In LF ln /\ (above = [] \/ exists a, above = a ++ [LF]).
(** the node touches the byte offset *)
Definition touches (n : node) (o : nat) : Prop := off (nl n) <= o <= off (nr n).

(** ** C37: decoding, from the LSP specification of textDocument/semanticTokens *)
Record abstok := Abs { ab_line : nat; ab_start : nat; ab_len : nat; ab_type : sematype; ab_mods : nat }.
Fixpoint decode (l c : nat) (ds : list deltatok) : list abstok :=
  match ds with
  | [] => []
  | d :: ds' =>
      let l' := l + d_line d in
      let c' := match d_line d with 0 => c + d_start d | _ => d_start d end in
      Abs l' c' (d_len d) (d_type d) (d_mods d) :: decode l' c' ds'
  end.
(** a token at a place of the document *)
Definition abs_of (t : rawtok) : abstok :=
  Abs (Z.to_nat (p_line (t_pos t))) (Z.to_nat (p_char (t_pos t))) (t_len t) (t_type t) (t_mods t).
Definition abs_le (t u : abstok) : Prop := ab_line t < ab_line u \/ (ab_line t = ab_line u /\ ab_start t <= ab_start u).

(** the definition is a builtin *)
Definition is_builtin (s : vst) (d : nat) : Prop := exists df, nth_error (v_defs s) d = Some df /\ df_src df = DS_Builtin.
(** the analysis found no definition for the variable *)
Definition unknown (s : vst) (n : node) : Prop := forall d, query s n <> Some (Defined d) /\ query s n <> Some (FromWith d).
(** what each type of token marks: names of attributes, identifiers of parameters, strings and variables; a variable by
    what the analysis [s] says of it *)
Definition marks (s : vst) (t : sematype) (mods : nat) (n : node) : Prop :=
  match t with
  | ST_String => kind_of n = NK_ExprString
  | ST_Select | ST_AttrName => kind_of n = NK_AttrName
  | ST_LambdaArg | ST_LambdaFormal => kind_of n = NK_Identifier
  | ST_Bool => kind_of n = NK_ExprVar /\ (varName n = b "true" \/ varName n = b "false")
  | ST_Null => kind_of n = NK_ExprVar /\ varName n = b "null"
  | ST_Builtin => kind_of n = NK_ExprVar /\
      exists d, (query s n = Some (Defined d) \/ query s n = Some (FromWith d)) /\ is_builtin s d
  | ST_FromWith => kind_of n = NK_ExprVar /\ exists d, query s n = Some (FromWith d) /\ ~ is_builtin s d
  | ST_Defined => kind_of n = NK_ExprVar /\
      ((exists d, query s n = Some (Defined d) /\ ~ is_builtin s d /\ mods = 0) \/
       (unknown s n /\ mods = SM_Deprecated))
  | ST_Function | ST_Number | ST_Undefined => False
  end.
(** the token stands for the node: its place is the node's start, which lies on the same line as its end *)
Definition token_of (s : vst) (src : bytes) (n : node) (t : rawtok) : Prop :=
  marks s (t_type t) (t_mods t) n /\ line (nl n) = line (nr n) /\
  t_pos t = offsetToPosition src (off (nl n)) /\ t_len t = off (nr n) - off (nl n).

(** ** C38 *)
Definition s_name (s : symbol) : bytes := match s with Symbol x _ _ _ _ _ _ => x end.
Definition s_full (s : symbol) : lrange := match s with Symbol _ _ _ _ r _ _ => r end.
Definition s_sel (s : symbol) : lrange := match s with Symbol _ _ _ _ _ r _ => r end.
Definition s_detail (s : symbol) : bytes := match s with Symbol _ d _ _ _ _ _ => d end.
Definition s_deprecated (s : symbol) : bool := match s with Symbol _ _ _ d _ _ _ => d end.
Definition s_kids (s : symbol) : list symbol := match s with Symbol _ _ _ _ _ _ k => k end.
Inductive symbol_of : symbol -> symbol -> Prop :=
| symbol_self s : symbol_of s s
| symbol_kid s k t : In k (s_kids s) -> symbol_of k t -> symbol_of s t.
(** a symbol shown as "identifier" is for a variable that is not `true`, `false` or `null`, and is struck out if and only
    if the variable is unknown; no other symbol is *)
Definition shows (v : vst) (src : bytes) (s : symbol) : Prop :=
  (s_detail s = b "identifier" -> exists n, kind_of n = NK_ExprVar /\ s_name s = varName n /\
     s_full s = toLSPRange src (nrange n) /\ (s_deprecated s = true <-> unknown v n)) /\
  (s_deprecated s = true -> s_detail s = b "identifier").

(** ** C39 *)
Definition foldable (n : node) : Prop :=
  match kind_of n with
  | NK_ExprAttrs | NK_ExprList | NK_ExprLambda | NK_ExprLet | NK_ExprWith | NK_ExprIf | NK_ExprString => True
  | _ => False
  end.
(** starts on one line and ends on a later one *)
Definition multi_line (n : node) : Prop := line (nl n) < line (nr n).

(** ** C55 *)
(** the LSP severity of each nixf severity *)
Definition lsp_severity (s : severity) : nat :=
  match s with DS_Fatal => 1 | DS_Error => 1 | DS_Warning => 2 | DS_Info => 3 | DS_Hint => 4 end.
(** how a tag of a diagnostic is shown *)
Definition tag_means (t : dtag) (l : ltag) : Prop :=
  match t with Faded => l = Unnecessary | Striked => l = Deprecated end.
(** the entry published for a note of the diagnostic *)
Definition note_entry (src : bytes) (d : diag) (n : note) (e : ldiag) : Prop :=
  ld_code e = nsname_of (n_kind n) /\ ld_severity e = 4 /\
  lsp_range src (off (lcur (n_range n))) (off (rcur (n_range n))) (ld_range e) /\
  fills (nmessage (n_kind n)) (n_args n) (ld_message e) /\
  exists r, ld_related e = [Related r (b "original diagnostic")] /\
            lsp_range src (off (lcur (d_range d))) (off (rcur (d_range d))) r.
(** the entries published for a diagnostic: its own, then one per note, in order *)
Definition entries (src : bytes) (d : diag) (es : list ldiag) : Prop :=
  exists e notes, es = e :: notes /\
    ld_code e = sname_of (d_kind d) /\ ld_severity e = lsp_severity (severity_of (d_kind d)) /\
    lsp_range src (off (lcur (d_range d))) (off (rcur (d_range d))) (ld_range e) /\
    (exists msg tail, ld_message e = msg ++ tail /\ fills (dmessage (d_kind d)) (d_args d) msg /\
                      (d_fixes d = [] -> tail = [])) /\
    Forall2 (fun n r => lsp_range src (off (lcur (n_range n))) (off (rcur (n_range n))) (rel_range r) /\
                        fills (nmessage (n_kind n)) (n_args n) (rel_message r)) (d_notes d) (ld_related e) /\
    Forall2 tag_means (d_tags d) (ld_tags e) /\
    Forall2 (note_entry src d) (d_notes d) notes.
(** the diagnostics whose name is not in the list of names to suppress *)
Definition unsuppressed (names : list bytes) (ds : list diag) : list diag :=
  filter (fun d => negb (existsb (bytes_eqb (sname_of (d_kind d))) names)) ds.
