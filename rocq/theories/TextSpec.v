(** Specification vocabulary for C06-C10 and C59: Unicode text, UTF-8, UTF-16 and LSP positions, written from
    the Unicode and LSP definitions.  It uses the record types of the model (positions, changes, notifications)
    and none of its functions except the entry points whose behaviour is specified. *)
From Verif Require Import Base TextModel.
Local Open Scope N_scope.

(** A text, as the client's editor sees it: a sequence of Unicode scalar values. *)
Definition scalar (x : N) : Prop := x < 0xD800 \/ (0xE000 <= x /\ x < 0x110000).
Definition text := list N.
Definition unicode (d : text) : Prop := Forall scalar d.

(** UTF-8 (RFC 3629). *)
Definition utf8_char (x : N) : bytes :=
  List.map ascii_of_N
    (if x <? 0x80 then [x]
     else if x <? 0x800 then [0xC0 + x / 64; 0x80 + x mod 64]
     else if x <? 0x10000 then [0xE0 + x / 4096; 0x80 + (x / 64) mod 64; 0x80 + x mod 64]
     else [0xF0 + x / 262144; 0x80 + (x / 4096) mod 64; 0x80 + (x / 64) mod 64; 0x80 + x mod 64]).
Definition utf8 (d : text) : bytes := flat_map utf8_char d.

(** UTF-16 code units. *)
Definition u16 (x : N) : nat := if x <? 0x10000 then 1%nat else 2%nat.
Definition u16len (d : text) : nat := list_sum (List.map u16 d).

Definition LF : N := 10.
Definition CR : N := 13.

(** LSP: a line ends at LF, at CR LF, or at a CR that no LF follows. [next] is the character after [x]. *)
Definition ends_line (x : N) (next : option N) : bool :=
  (x =? LF) || ((x =? CR) && negb match next with Some y => y =? LF | None => false end).

(** The LSP position (line, column in UTF-16 units) of the place between [before] and [after]. *)
Fixpoint position_from (before after : text) (l c : nat) : nat * nat :=
  match before with
  | [] => (l, c)
  | x :: before' =>
      if ends_line x (hd_error (before' ++ after)) then position_from before' after (S l) 0
      else position_from before' after l (c + u16 x)
  end.
Definition position (before after : text) : lpos :=
  let '(l, c) := position_from before after 0 0 in LPos (Z.of_nat l) (Z.of_nat c).

(** The same when only LF ends a line: [line], the number of line feeds; [last], what follows the last one. *)
Definition lf_position (before : text) (p : lpos) : Prop :=
  exists above last,
    before = above ++ last /\ ~ In LF last /\ (above = [] \/ exists a, above = a ++ [LF]) /\
    p_line p = Z.of_nat (count_occ N.eq_dec before LF) /\
    p_char p = Z.of_nat (u16len last).

(** Numbers a client may send: LSP's uinteger. *)
Definition uinteger (z : Z) : Prop := (0 <= z < 2147483648)%Z.
Definition uposition (p : lpos) : Prop := uinteger (p_line p) /\ uinteger (p_char p).

(** What the client's editor did, and the change event it sends for it. *)
Inductive client_edit : text -> change -> text -> Prop :=
| edit_all d rl t : unicode t -> client_edit d (Change None rl (utf8 t)) t
| edit_range before mid after rl t :
    unicode t ->
    uposition (position before (mid ++ after)) -> uposition (position (before ++ mid) after) ->
    (rl = None \/ rl = Some (Z.of_nat (u16len mid))) ->
    client_edit (before ++ mid ++ after)
      (Change (Some (position before (mid ++ after), position (before ++ mid) after)) rl (utf8 t))
      (before ++ t ++ after).

(** A list of edits; [P] restricts the texts the editor goes through. *)
Inductive client_edits (P : text -> Prop) : text -> list change -> text -> Prop :=
| edits_nil d : client_edits P d [] d
| edits_cons d c d' cs d'' :
    client_edit d c d' -> P d' -> client_edits P d' cs d'' -> client_edits P d (c :: cs) d''.

(** The client's open documents, and a history of what it told the server. *)
Definition documents := bytes -> option text.
Definition no_documents : documents := fun _ => None.
Definition set_document (f : bytes) (d : option text) (docs : documents) : documents :=
  fun g => if bytes_eqb f g then d else docs g.

Inductive client_history (P : text -> Prop) : documents -> list notification -> documents -> Prop :=
| history_nil docs : client_history P docs [] docs
| history_open docs f v t ns docs' :
    unicode t -> P t -> client_history P (set_document f (Some t) docs) ns docs' ->
    client_history P docs (DidOpen f v (utf8 t) :: ns) docs'
| history_change docs f v cs d d' ns docs' :
    docs f = Some d -> client_edits P d cs d' ->
    client_history P (set_document f (Some d') docs) ns docs' ->
    client_history P docs (DidChange f v cs :: ns) docs'
| history_close docs f ns docs' :
    client_history P (set_document f None docs) ns docs' ->
    client_history P docs (DidClose f :: ns) docs'.

(** The server's copies are the client's texts. *)
Definition in_sync (st : store) (docs : documents) : Prop :=
  forall f, option_map dr_contents (getDraft f st) = option_map utf8 (docs f).

(** Every CR is followed by LF. *)
Definition no_lone_cr (d : text) : Prop :=
  forall before after, d = before ++ CR :: after -> hd_error after = Some LF.

(** C08 for the clients whose texts satisfy [P]. *)
Definition sync_claim (A : Type) (analyse : bytes -> A) (P : text -> Prop) : Prop :=
  forall ns docs, client_history P no_documents ns docs ->
    exists s pubs, onNotifications A analyse ns (cinit A) = Ok (s, pubs) /\ in_sync (drafts A s) docs.

(** A run of the store: the operations of DraftStore on one or many files. *)
Inductive store_op := SAdd (f version contents : bytes) | SRemove (f : bytes).
Definition store_step (st : store) (o : store_op) : store :=
  match o with
  | SAdd f v c => snd (addDraft f v c st)
  | SRemove f => removeDraft f st
  end.
Definition store_run (ops : list store_op) : store := fold_left store_step ops [].

(** The numeric suffix of a version string: its trailing decimal digits, and their value. *)
Definition decimal (w : bytes) : Prop := Forall (fun c => 48 <= code c /\ code c <= 57) w.
Definition value (w : bytes) : Z := fold_left (fun n c => (n * 10 + Z.of_N (code c - 48))%Z) w 0%Z.
Definition suffix_of (v stem digits : bytes) : Prop :=
  v = stem ++ digits /\ decimal digits /\
  (stem = [] \/ exists s c, stem = s ++ [c] /\ ~ (48 <= code c /\ code c <= 57)).

(** C59: the notifications a trace has started. *)
Definition started {A : Type} (es : list (event A)) : list notification :=
  flat_map (fun e => match e with Start _ n => [n] | _ => [] end) es.

(** A list of changes applied one after the other, each successfully. *)
Inductive applied : bytes -> list change -> bytes -> Prop :=
| applied_nil t : applied t [] t
| applied_cons t c t' cs t'' : applyChange t c = (true, t') -> applied t' cs t'' -> applied t (c :: cs) t''.

(** Operations of a store that concern another file. *)
Definition op_file (o : store_op) : bytes := match o with SAdd f _ _ => f | SRemove f => f end.
