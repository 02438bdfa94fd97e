(** Model of document text handling: nixd/lspserver/src/SourceCode.cpp, nixd/lspserver/src/DraftStore.cpp,
    nixd/lib/Controller/TextDocumentSync.cpp and the document part of nixd/lib/Controller/Support.cpp. *)
From Coq Require Import DecimalString DecimalZ.
From Verif Require Import Base.

(** Protocol.h:129-136 Position: int64 line and character *)
Record lpos := LPos { p_line : Z; p_char : Z }.

(** SourceCode.cpp:16-46: how iterateCodepoints classifies the byte at the current index: (bytes skipped,
    UTF-16 units).  llvm::countl_one of a non-ASCII byte: 1 for 10xxxxxx, 2, 3, 4 for the lead bytes, 5 or more
    for 11111xxx; lengths outside 2..4 are treated as one ASCII byte (lines 28-40). *)
Definition lead (c : ascii) : nat * nat :=
  let n := code c in
  if N.ltb n 128 then (1, 1)
  else if N.ltb n 192 then (1, 1)
  else if N.ltb n 224 then (2, 1)
  else if N.ltb n 240 then (3, 1)
  else if N.ltb n 248 then (4, 2)
  else (1, 1).

(** SourceCode.cpp:11-48 iterateCodepoints: the sequence of calls CB(U8Len, U16Len) it makes when no call
    returns true.  [skip] is the number of bytes of the current code point still to pass over; a code point
    whose trailing bytes are missing skips past the end (line 41), exactly as [I < U8.size()] then fails. *)
Fixpoint codepoints (skip : nat) (s : bytes) : list (nat * nat) :=
  match s with
  | [] => []
  | c :: r =>
      match skip with
      | S k => codepoints k r
      | 0 => lead c :: codepoints (fst (lead c) - 1) r
      end
  end.

(** SourceCode.cpp:51-73 lspLength (the encoding is always UTF-16, line 9) *)
Definition lspLength (s : bytes) : nat := fold_left (fun n cp => n + snd cp) (codepoints 0 s) 0.

(** conversion of an int64 argument to a parameter of type int *)
Definition to_int32 (z : Z) : Z := ((z + 2147483648) mod 4294967296 - 2147483648)%Z.

(** SourceCode.cpp:90-94, the callback loop of measureUnits: (Valid, Units, Result) *)
Fixpoint measure_loop (cps : list (nat * nat)) (units : Z) (result : nat) : bool * Z * nat :=
  match cps with
  | [] => (false, units, result)
  | (u8, u16) :: cps' =>
      let units' := (units - Z.of_nat u16)%Z in
      if (units' <=? 0)%Z then (true, units', result + u8)
      else measure_loop cps' units' (result + u8)
  end.

(** SourceCode.cpp:79-114 measureUnits; the int parameter truncates the int64 column of its caller *)
Definition measureUnits (s : bytes) (units64 : Z) : nat * bool :=
  let units := to_int32 units64 in
  if (units <=? 0)%Z then (0, (0 <=? units)%Z)
  else
    let '(valid, units', result) := measure_loop (codepoints 0 s) units 0 in
    let valid := if (units' <? 0)%Z then false else valid in
    if Nat.ltb (List.length s) result then (List.length s, false) else (result, valid).

Definition is_lf (c : ascii) : bool := Ascii.eqb c "010".

(** SourceCode.cpp:124-131: offset of the start of line [n] (find and the counting loop fused; the loop
    counter is an int, which cannot wrap before the text runs out of line feeds) *)
Fixpoint line_start (s : bytes) (o : nat) (n : Z) : option nat :=
  if (n =? 0)%Z then Some o
  else
    match s with
    | [] => None
    | c :: r => if is_lf c then line_start r (S o) (n - 1)%Z else line_start r (S o) n
    end.

(** StringRef::take_until *)
Fixpoint take_until_lf (s : bytes) : bytes :=
  match s with
  | [] => []
  | c :: r => if is_lf c then [] else c :: take_until_lf r
  end.

(** SourceCode.cpp:116-143 positionToOffset; None is an error *)
Definition positionToOffset (code : bytes) (p : lpos) (allowBeyond : bool) : option nat :=
  if (p_line p <? 0)%Z then None
  else if (p_char p <? 0)%Z then None
  else
    match line_start code 0 (p_line p) with
    | None => None
    | Some start =>
        let '(n, valid) := measureUnits (take_until_lf (skipn start code)) (p_char p) in
        if negb valid && negb allowBeyond then None else Some (start + n)
    end.

Definition count_lf (s : bytes) : nat := List.length (filter is_lf s).

(** text after the last line feed: Before.substr(StartOfLine), SourceCode.cpp:149-153 *)
Fixpoint after_last_lf (s acc : bytes) : bytes :=
  match s with
  | [] => rev acc
  | c :: r => if is_lf c then after_last_lf r [] else after_last_lf r (c :: acc)
  end.

(** SourceCode.cpp:145-155 offsetToPosition *)
Definition offsetToPosition (code : bytes) (o : nat) : lpos :=
  let before := firstn (Nat.min (List.length code) o) code in
  LPos (Z.of_nat (count_lf before)) (Z.of_nat (lspLength (after_last_lf before []))).

(** last byte of a string *)
Definition back (s : bytes) : option ascii := match rev s with [] => None | c :: _ => Some c end.

(** SourceCode.cpp:175-189 inferFinalNewline, on the index (None = error) and the contents *)
Definition inferFinalNewline (idx : option nat) (contents : bytes) (p : lpos) : option nat * bytes :=
  match idx with
  | Some _ => (idx, contents)
  | None =>
      if match back contents with Some c => is_lf c | None => false end then (None, contents)
      else if negb (p_char p =? 0)%Z then (None, contents)
      else if negb (p_line p =? Z.of_nat (count_lf contents) + 1)%Z then (None, contents)
      else (Some (List.length contents + 1), contents ++ ["010"%char])
  end.

(** Protocol.h TextDocumentContentChangeEvent: range, rangeLength, text *)
Record change := Change { c_range : option (lpos * lpos); c_rangeLength : option Z; c_text : bytes }.

(** SourceCode.cpp:191-234 applyChange: (success, new value of the string) *)
Definition applyChange (contents : bytes) (c : change) : bool * bytes :=
  match c_range c with
  | None => (true, c_text c)
  | Some (st, en) =>
      let '(si, contents) := inferFinalNewline (positionToOffset contents st false) contents st in
      match si with
      | None => (false, contents)
      | Some i =>
          let '(ei, contents) := inferFinalNewline (positionToOffset contents en false) contents en in
          match ei with
          | None => (false, contents)
          | Some j =>
              if Nat.ltb j i then (false, contents)
              else
                let len := Z.of_nat (lspLength (firstn (j - i) (skipn i contents))) in
                if match c_rangeLength c with Some n => negb (len =? n)%Z | None => false end
                then (false, contents)
                else (true, firstn i contents ++ c_text c ++ skipn j contents)
          end
      end
  end.

(** ** DraftStore *)

Definition is_digit (c : ascii) : bool := N.leb 48 (code c) && N.leb (code c) 57.

(** DraftStore.cpp:45-58, the loop of increment.  The iterator is never advanced: after a trailing 9 has been
    overwritten by 0 the next iteration looks at the same character again. The string is given reversed, so its
    head is *rbegin().  At most two iterations. *)
Definition increment_rev (r : bytes) : bytes :=
  match r with
  | [] => ["1"%char]
  | c :: r' =>
      if negb (is_digit c) then "1"%char :: r   (* S.insert(I.base(), '1') with I = rbegin() appends *)
      else if negb (Ascii.eqb c "9") then ascii_of_N (code c + 1) :: r'
      else (* *I = '0', loop again on the same position: '0' is a digit, not '9', so it becomes '1' *)
        ascii_of_N (code "0" + 1) :: r'
  end.

(** DraftStore.cpp:38-59 increment *)
Definition increment (s : bytes) : bytes :=
  match back s with
  | None => s ++ ["0"%char]
  | Some c => if is_digit c then rev (increment_rev (rev s)) else s ++ ["0"%char]
  end.

(** DraftStore.cpp:70-82 updateVersion (the log line is dropped) *)
Definition updateVersion (old specified : bytes) : bytes :=
  match specified with [] => increment old | _ => specified end.

(** DraftStore.cpp:84-86 encodeVersion; std::to_string of an int64 *)
Definition encodeVersion (v : option Z) : bytes :=
  match v with
  | None => []
  | Some z => b (NilZero.string_of_int (Z.to_int z))
  end.

Fixpoint all_digits_value (s : bytes) (acc : Z) : option Z :=
  match s with
  | [] => Some acc
  | c :: r => if is_digit c then all_digits_value r (acc * 10 + Z.of_N (code c - 48))%Z else None
  end.

(** llvm::to_integer(S, int64_t&, 10) = StringRef::getAsInteger(10, long long): optional minus sign, at least
    one digit, nothing else, and the value must fit. *)
Definition parse_int64 (s : bytes) : option Z :=
  let fits z := ((-9223372036854775808 <=? z) && (z <=? 9223372036854775807))%Z in
  match s with
  | [] => None
  | c :: r =>
      if Ascii.eqb c "-" then
        match r with
        | [] => None
        | _ => match all_digits_value r 0 with
               | Some v => if fits (- v)%Z then Some (- v)%Z else None
               | None => None
               end
        end
      else match all_digits_value s 0 with
           | Some v => if fits v then Some v else None
           | None => None
           end
  end.

(** DraftStore.cpp:61-68 decodeVersion *)
Definition decodeVersion (s : bytes) : option Z := parse_int64 s.

(** llvm::StringMap<DraftAndTime>, without the modification time *)
Record draft := Draft { dr_contents : bytes; dr_version : bytes }.
Definition store := list (bytes * draft).

Fixpoint lookup {A} (k : bytes) (m : list (bytes * A)) : option A :=
  match m with
  | [] => None
  | (k', v) :: m' => if bytes_eqb k k' then Some v else lookup k m'
  end.
Definition remove {A} (k : bytes) (m : list (bytes * A)) : list (bytes * A) :=
  filter (fun kv => negb (bytes_eqb k (fst kv))) m.
Definition insert {A} (k : bytes) (v : A) (m : list (bytes * A)) : list (bytes * A) :=
  (k, v) :: remove k m.

(** DraftStore.cpp:18-26 getDraft *)
Definition getDraft (f : bytes) (st : store) : option draft := lookup f st.
(** DraftStore.cpp:88-97 addDraft: Drafts[File] default-constructs an empty draft when absent *)
Definition addDraft (f version contents : bytes) (st : store) : bytes * store :=
  let old := match lookup f st with Some d => dr_version d | None => [] end in
  let v := updateVersion old version in
  (v, insert f (Draft contents v) st).
(** DraftStore.cpp:99-103 removeDraft *)
Definition removeDraft (f : bytes) (st : store) : store := remove f st.

(** ** The controller's documents *)

Section Controller.
(** nixf::parse followed by VariableLookupAnalysis (Support.cpp:30-45), as a function of the text. *)
Variable A : Type.
Variable analyse : bytes -> A.

(** NixTU (NixTU.h): the analysis together with the text it was computed from *)
Record tu := TU { tu_src : bytes; tu_res : A }.

(** what is sent to the client about a document: publishDiagnostics(File, Version, Src, Diagnostics) *)
Record publication := Pub { pub_file : bytes; pub_version : option Z; pub_of : option tu }.

Record cstate := CState { drafts : store; tus : list (bytes * tu) }.
Definition cinit : cstate := CState [] [].

Inductive notification :=
| DidOpen (f : bytes) (version : option Z) (text : bytes)
| DidChange (f : bytes) (version : option Z) (changes : list change)
| DidClose (f : bytes).

(** Support.cpp:14-21 removeDocument *)
Definition removeDocument (f : bytes) (s : cstate) : cstate * list publication :=
  (CState (removeDraft f (drafts s)) (remove f (tus s)), [Pub f None None]).

(** Support.cpp:23-58 actOnDocumentAdd (both branches store an analysis of the draft's text) *)
Definition actOnDocumentAdd (f : bytes) (version : option Z) (s : cstate) : res (cstate * list publication) :=
  match getDraft f (drafts s) with
  | None => Crash "added document is not in the store"
  | Some d =>
      let t := TU (dr_contents d) (analyse (dr_contents d)) in
      Ok (CState (drafts s) (insert f t (tus s)), [Pub f version (Some t)])
  end.

(** TextDocumentSync.cpp:31-40, the loop over the changes: None as soon as one fails *)
Fixpoint applyChanges (code : bytes) (cs : list change) : option bytes :=
  match cs with
  | [] => Some code
  | c :: cs' =>
      let '(ok, code') := applyChange code c in
      if ok then applyChanges code' cs' else None
  end.

(** TextDocumentSync.cpp:13-49 *)
Definition onNotification (n : notification) (s : cstate) : res (cstate * list publication) :=
  match n with
  | DidOpen f v text =>
      let '(_, ds) := addDraft f (encodeVersion v) text (drafts s) in
      actOnDocumentAdd f v (CState ds (tus s))
  | DidChange f v cs =>
      match getDraft f (drafts s) with
      | None => Ok (s, [])
      | Some d =>
          match applyChanges (dr_contents d) cs with
          | None => Ok (removeDocument f s)
          | Some code =>
              let '(_, ds) := addDraft f (encodeVersion v) code (drafts s) in
              actOnDocumentAdd f v (CState ds (tus s))
          end
      end
  | DidClose f => Ok (removeDocument f s)
  end.

(** a history of notifications *)
Fixpoint onNotifications (ns : list notification) (s : cstate) : res (cstate * list publication) :=
  match ns with
  | [] => Ok (s, [])
  | n :: ns' =>
      let* (s1, p1) := onNotification n s in
      let* (s2, p2) := onNotifications ns' s1 in
      Ok (s2, p1 ++ p2)
  end.

(** ** Concurrency
    Notifications run on the main thread, one at a time (Connection.cpp loop, Support.cpp:57 calls Action
    directly).  Read-only requests run on the worker pool; each takes one shared pointer to a unit with getTU
    (Controller.h:119-127, under TUsLock) and uses nothing else (DocumentLink.cpp:70, DocumentHighlight.cpp:64,
    Rename.cpp:80 and 106, FoldingRange.cpp:141, Hover.cpp:214, SemanticTokens.cpp:244, InlayHints.cpp:128,
    DocumentSymbol.cpp:244, Definition.cpp:386, CodeAction.cpp:38, Completion.cpp:471, FindReferences.cpp:57).
    Between the critical sections of the main thread any number of reads may happen. *)
Inductive phase :=
| Idle
| Adding (f : bytes)               (* the draft is in the store, Support.cpp:25-32 not yet run *)
| Inserting (f : bytes) (t : tu)   (* analysed, Support.cpp:50-53 (or 35-40) not yet run *)
| Erasing (f : bytes).             (* the draft is removed, Support.cpp:17-18 not yet run *)

Inductive event :=
| Start (n : notification)         (* main thread: take a notification and update the store *)
| Advance                          (* main thread: next critical section *)
| Read (f : bytes) (r : option tu) (* worker: getTU(f) returns r *).

Inductive mstep : cstate * phase -> event -> cstate * phase -> Prop :=
(* TextDocumentSync.cpp:13-20 *)
| m_open f v text ds ts :
    mstep (CState ds ts, Idle) (Start (DidOpen f v text))
          (CState (snd (addDraft f (encodeVersion v) text ds)) ts, Adding f)
(* TextDocumentSync.cpp:26-29 *)
| m_change_unknown f v cs ds ts :
    getDraft f ds = None ->
    mstep (CState ds ts, Idle) (Start (DidChange f v cs)) (CState ds ts, Idle)
(* TextDocumentSync.cpp:32-38 *)
| m_change_bad f v cs d ds ts :
    getDraft f ds = Some d -> applyChanges (dr_contents d) cs = None ->
    mstep (CState ds ts, Idle) (Start (DidChange f v cs)) (CState (removeDraft f ds) ts, Erasing f)
(* TextDocumentSync.cpp:41-43 *)
| m_change f v cs d code ds ts :
    getDraft f ds = Some d -> applyChanges (dr_contents d) cs = Some code ->
    mstep (CState ds ts, Idle) (Start (DidChange f v cs))
          (CState (snd (addDraft f (encodeVersion v) code ds)) ts, Adding f)
(* TextDocumentSync.cpp:46-49 *)
| m_close f ds ts :
    mstep (CState ds ts, Idle) (Start (DidClose f)) (CState (removeDraft f ds) ts, Erasing f)
(* Support.cpp:26-32, 44-45 *)
| m_analyse f d ds ts :
    getDraft f ds = Some d ->
    mstep (CState ds ts, Adding f) Advance
          (CState ds ts, Inserting f (TU (dr_contents d) (analyse (dr_contents d))))
(* Support.cpp:50-53 *)
| m_insert f t ds ts :
    mstep (CState ds ts, Inserting f t) Advance (CState ds (insert f t ts), Idle)
(* Support.cpp:16-19 *)
| m_erase f ds ts :
    mstep (CState ds ts, Erasing f) Advance (CState ds (remove f ts), Idle)
(* Controller.h:119-127 *)
| m_read f s ph :
    mstep (s, ph) (Read f (lookup f (tus s))) (s, ph).

Inductive mexec : cstate * phase -> list event -> cstate * phase -> Prop :=
| mexec_nil s : mexec s [] s
| mexec_snoc s es s1 e s2 : mexec s es s1 -> mstep s1 e s2 -> mexec s (es ++ [e]) s2.
End Controller.
