(** Properties C06-C10 and C59 of document text handling. *)
From Verif Require Import Base TextModel TextSpec TextProofs TextFacts.

(** ** C06: offset -> position -> offset is the identity.
    False on a line of 2^31 or more UTF-16 units: the column is truncated to an int (SourceCode.cpp:79,137). *)
Theorem C06_refuted :
  exists before after, unicode (before ++ after) /\
    positionToOffset (utf8 (before ++ after)) (offsetToPosition (utf8 (before ++ after)) (List.length (utf8 before))) true
    <> Some (List.length (utf8 before)).
Proof. exact C06_refuted_proof. Qed.
Print Assumptions C06_refuted.

(** What holds: every character boundary whose column fits in 31 bits, strictly and with clamping.  Missing:
    longer lines. *)
Theorem C06_partial :
  forall before after allow, unicode (before ++ after) ->
    let code := utf8 (before ++ after) in
    let p := offsetToPosition code (List.length (utf8 before)) in
    (p_char p < 2147483648)%Z ->
    positionToOffset code p allow = Some (List.length (utf8 before)).
Proof. exact C06_partial_proof. Qed.
Print Assumptions C06_partial.

(** For all byte strings, valid UTF-8 or not, and all positions: never outside the document. *)
Theorem C06_in_bounds :
  forall code p allow o, positionToOffset code p allow = Some o -> o <= List.length code.
Proof. exact C06_in_bounds_proof. Qed.
Print Assumptions C06_in_bounds.

(** A document with one-, two-, three- and four-byte characters, an empty line and CR LF. *)
Example C06_nonvacuous :
  let before := [97; 233; 10; 10; 8364; 128512]%N in
  let after := [98; 13; 10]%N in
  unicode (before ++ after) /\
  offsetToPosition (utf8 (before ++ after)) (List.length (utf8 before)) = LPos 2 3 /\
  positionToOffset (utf8 (before ++ after)) (LPos 2 3) true = Some 12.
Proof.
  split; [now apply unicode_check|split; reflexivity].
Qed.

(** ** C07: positions count UTF-16 code units. *)
Theorem C07_utf16 :
  forall before after, unicode (before ++ after) ->
    lf_position before (offsetToPosition (utf8 (before ++ after)) (List.length (utf8 before))).
Proof. exact C07_utf16_proof. Qed.
Print Assumptions C07_utf16.

(** The strict conversion accepts exactly the positions of character boundaries (so a position in the middle of a
    surrogate pair or past the end of its line is rejected), and is exact on them. *)
Theorem C07_strict :
  forall d p o, unicode d -> (p_char p < 2147483648)%Z ->
    (positionToOffset (utf8 d) p false = Some o <->
     exists before after, d = before ++ after /\ lf_position before p /\ o = List.length (utf8 before)).
Proof. exact C07_strict_proof. Qed.
Print Assumptions C07_strict.

(** Negative and non-existent lines, and negative columns, are errors. *)
Theorem C07_errors :
  forall d p allow, unicode d ->
    (p_line p < 0 \/ p_char p < 0 \/ Z.of_nat (count_occ N.eq_dec d LF) < p_line p)%Z ->
    positionToOffset (utf8 d) p allow = None.
Proof. exact C07_errors_proof. Qed.
Print Assumptions C07_errors.

(** The lenient conversion: a column past the end of a line (the text up to the next LF) means its end; a column
    inside a surrogate pair means the end of the pair. *)
Theorem C07_lenient :
  forall above ln rest p, unicode (above ++ ln ++ rest) ->
    (above = [] \/ exists a, above = a ++ [LF]) -> ~ In LF ln -> (rest = [] \/ exists r, rest = LF :: r) ->
    p_line p = Z.of_nat (count_occ N.eq_dec above LF) -> (p_char p < 2147483648)%Z ->
    ((Z.of_nat (u16len ln) < p_char p)%Z ->
      positionToOffset (utf8 (above ++ ln ++ rest)) p true = Some (List.length (utf8 (above ++ ln)))) /\
    (forall l1 x l2, ln = l1 ++ x :: l2 -> u16 x = 2 -> p_char p = (Z.of_nat (u16len l1) + 1)%Z ->
      positionToOffset (utf8 (above ++ ln ++ rest)) p true = Some (List.length (utf8 (above ++ l1 ++ [x])))).
Proof. exact C07_lenient_proof. Qed.
Print Assumptions C07_lenient.

(** LSP: a column greater than the line length defaults back to the line length.  Two ways in which this fails: an
    edit with such a column is refused, and on a CR LF line the lenient conversion gives the place between CR and
    LF instead of the one before CR. *)
Theorem C07_refuted :
  (exists d before after p,
    unicode d /\ d = before ++ after /\ hd_error after = Some LF /\
    p_line p = p_line (position before after) /\ (p_char (position before after) < p_char p < 100)%Z /\
    fst (applyChange (utf8 d) (Change (Some (p, p)) None [])) = false) /\
  (exists d before after p,
    unicode d /\ d = before ++ CR :: LF :: after /\
    p_line p = p_line (position before (CR :: LF :: after)) /\
    (p_char (position before (CR :: LF :: after)) + 1 < p_char p < 100)%Z /\
    positionToOffset (utf8 d) p true <> Some (List.length (utf8 before))).
Proof. exact C07_refuted_proof. Qed.
Print Assumptions C07_refuted.

Example C07_nonvacuous :
  unicode [97; 10; 128512; 98; 10]%N /\ lf_position [97; 10; 128512]%N (LPos 1 2) /\
  positionToOffset (utf8 [97; 10; 128512; 98; 10]%N) (LPos 1 1) false = None /\
  positionToOffset (utf8 [97; 10; 128512; 98; 10]%N) (LPos 1 1) true = Some 6 /\
  positionToOffset (utf8 [97; 10; 128512; 98; 10]%N) (LPos 1 9) true = Some 7 /\
  positionToOffset (utf8 [97; 10; 128512; 98; 10]%N) (LPos 3 0) true = None.
Proof.
  split; [|split; [|repeat split]].
  - now apply unicode_check.
  - exists [97; 10]%N, [128512]%N. repeat split.
    + intros [H|[]]. discriminate.
    + right. exists [97%N]. reflexivity.
Qed.

(** ** C08: incremental synchronisation.
    False: LSP also ends lines at a lone CR, the server does not, so an edit on the line after one is refused (and
    the document dropped) or lands elsewhere. *)
Theorem C08_refuted :
  forall (A : Type) (analyse : bytes -> A), ~ sync_claim A analyse unicode.
Proof. exact C08_refuted_proof. Qed.
Print Assumptions C08_refuted.

(** What holds, for every history of opens, closes and lists of edits on any number of documents: as long as no
    text contains a lone CR, the server's copies are the UTF-8 of the client's texts.  Missing: lone CR.  (The
    positions the client sends are LSP's, with the three line endings.) *)
Theorem C08_partial :
  forall (A : Type) (analyse : bytes -> A), sync_claim A analyse no_lone_cr.
Proof. exact C08_partial_proof. Qed.
Print Assumptions C08_partial.

(** Whatever the client is and whatever positions it sends: when a range edit is accepted, it replaced exactly the
    text between the two positions (line feeds and UTF-16 units) by the new text - possibly after adding a missing
    final line feed, and then only if one of the positions is the start of the line after the last. *)
Theorem C08_accepted :
  forall d st en rl t r, unicode d -> unicode t ->
    (p_char st < 2147483648)%Z -> (p_char en < 2147483648)%Z ->
    applyChange (utf8 d) (Change (Some (st, en)) rl (utf8 t)) = (true, r) ->
    exists d1 before mid after,
      (d1 = d \/
       (d1 = d ++ [LF] /\ let eof := LPos (Z.of_nat (count_occ N.eq_dec d LF) + 1) 0 in st = eof \/ en = eof)) /\
      d1 = before ++ mid ++ after /\ lf_position before st /\ lf_position (before ++ mid) en /\
      (rl = None \/ rl = Some (Z.of_nat (u16len mid))) /\ r = utf8 (before ++ t ++ after).
Proof. exact C08_accepted_proof. Qed.
Print Assumptions C08_accepted.

(** Two documents, a full replacement and two range edits in one notification, one of them over several lines and a
    surrogate pair; the histories in the theorems are inhabited by it. *)
Example C08_nonvacuous :
  exists ns docs s pubs,
    client_history no_lone_cr no_documents ns docs /\ List.length ns = 3 /\
    onNotifications unit (fun _ => tt) ns (cinit unit) = Ok (s, pubs) /\
    docs (b "f") = Some [97; 120; 98; 10]%N /\ docs (b "g") = Some [] /\
    option_map dr_contents (getDraft (b "f") (drafts unit s)) = Some (b "axb" ++ ["010"%char]).
Proof.
  do 4 eexists. split; [|split; [|split; [|split; [|split]]]].
  - apply (history_open _ _ (b "g") None []); [constructor|intros u v E; now destruct u|].
    apply (history_open _ _ (b "f") (Some 1%Z) []); [constructor|intros u v E; now destruct u|].
    eapply (history_change _ _ (b "f") (Some 2%Z)); [reflexivity| |apply history_nil].
    eapply edits_cons; [apply (edit_all _ None [97; 10; 128512; 13; 10; 99; 98; 10]%N)| |].
    + now apply unicode_check.
    + now apply no_lone_cr_check.
    + eapply edits_cons; [| |apply edits_nil].
      * apply (edit_range [97]%N [10; 128512; 13; 10; 99]%N [98; 10]%N (Some 6%Z) [120]%N); [now apply unicode_check|..].
        -- repeat constructor; vm_compute; congruence.
        -- repeat constructor; vm_compute; congruence.
        -- right. reflexivity.
      * now apply no_lone_cr_check.
  - reflexivity.
  - vm_compute. reflexivity.
  - reflexivity.
  - reflexivity.
  - reflexivity.
Qed.

(** ** C09: a change that cannot be applied never leaves a half-edited document. *)
Theorem C09_atomic :
  forall (A : Type) (analyse : bytes -> A) s f v cs d, getDraft f (drafts A s) = Some d ->
    exists s' pubs, onNotification A analyse (DidChange f v cs) s = Ok (s', pubs) /\
      (forall g, g <> f -> getDraft g (drafts A s') = getDraft g (drafts A s) /\ lookup g (tus A s') = lookup g (tus A s)) /\
      ((exists t, applied (dr_contents d) cs t /\
          option_map dr_contents (getDraft f (drafts A s')) = Some t /\
          lookup f (tus A s') = Some (TU A t (analyse t)) /\
          pubs = [Pub A f v (Some (TU A t (analyse t)))]) \/
       ((forall t, ~ applied (dr_contents d) cs t) /\
          getDraft f (drafts A s') = None /\ lookup f (tus A s') = None /\ pubs = [Pub A f None None])).
Proof. exact C09_atomic_proof. Qed.
Print Assumptions C09_atomic.

(** What counts as a change that cannot be applied: a position that is not one of the text (even after the final
    newline has been supplied), an end before the start, or a wrong length.  *)
Theorem C09_rejected :
  forall d st en rl t, unicode d -> (p_char st < 2147483648)%Z -> (p_char en < 2147483648)%Z ->
    ((forall before after, d = before ++ after \/ d ++ [LF] = before ++ after -> ~ lf_position before st) \/
     (forall before after, d = before ++ after \/ d ++ [LF] = before ++ after -> ~ lf_position before en) \/
     (forall before mid after, d = before ++ mid ++ after \/ d ++ [LF] = before ++ mid ++ after ->
        lf_position before st -> ~ lf_position (before ++ mid) en) \/
     (exists z, rl = Some z /\
       forall before mid after, d = before ++ mid ++ after \/ d ++ [LF] = before ++ mid ++ after ->
        lf_position before st -> lf_position (before ++ mid) en -> z <> Z.of_nat (u16len mid))) ->
    fst (applyChange (utf8 d) (Change (Some (st, en)) rl (utf8 t))) = false.
Proof. exact C09_rejected_proof. Qed.
Print Assumptions C09_rejected.

(** The second of three changes is bad: the document goes away, the other one stays. *)
Example C09_nonvacuous :
  exists s pubs, onNotifications unit (fun _ => tt)
    [DidOpen (b "g") None (b "1"); DidOpen (b "f") None (b "abc");
     DidChange (b "f") None [Change (Some (LPos 0 0, LPos 0 1)) None (b "x");
                             Change (Some (LPos 0 2, LPos 0 9)) None (b "y");
                             Change None None (b "z")]] (cinit unit) = Ok (s, pubs) /\
    getDraft (b "f") (drafts unit s) = None /\
    option_map dr_contents (getDraft (b "g") (drafts unit s)) = Some (b "1").
Proof. do 2 eexists. split; [vm_compute; reflexivity|]. split; reflexivity. Qed.

(** ** C10: the document store.
    False: an unversioned re-addition of version "9" gives version "1". *)
Theorem C10_refuted :
  exists ops f c v1 v2,
    getDraft f (store_run ops) = Some (Draft c v1) /\
    getDraft f (store_run (ops ++ [SAdd f [] c])) = Some (Draft c v2) /\
    decimal v1 /\ decimal v2 /\ (value v2 < value v1)%Z.
Proof. exact C10_refuted_proof. Qed.
Print Assumptions C10_refuted.

(** What holds: without a supplied version, the numeric suffix grows by one unless its last digit is 9; a version
    without numeric suffix gets the suffix 0.  Missing: suffixes that end in 9. *)
Theorem C10_partial :
  forall ops f c c' v, getDraft f (store_run ops) = Some (Draft c v) ->
    exists v', getDraft f (store_run (ops ++ [SAdd f [] c'])) = Some (Draft c' v') /\
      (forall stem ds x, suffix_of v stem (ds ++ [x]) -> x <> "9"%char ->
         exists ds', suffix_of v' stem ds' /\ value ds' = (value (ds ++ [x]) + 1)%Z) /\
      (suffix_of v v [] -> v' = v ++ b "0").
Proof. exact C10_partial_proof. Qed.
Print Assumptions C10_partial.

(** The store returns the text, and the version if one was supplied, of the last addition that has not been removed
    since. *)
Theorem C10_last_addition :
  forall ops f v c later, (forall o, In o later -> op_file o <> f) ->
    let st := store_run (ops ++ SAdd f v c :: later) in
    (exists v', getDraft f st = Some (Draft c v') /\ (v <> [] -> v' = v)) /\
    getDraft f (store_run (ops ++ SRemove f :: later)) = None.
Proof. exact C10_last_addition_proof. Qed.
Print Assumptions C10_last_addition.

(** A version number survives encoding and decoding; a missing one is decoded as missing. *)
Theorem C10_version_roundtrip :
  (forall z, (-9223372036854775808 <= z <= 9223372036854775807)%Z -> decodeVersion (encodeVersion (Some z)) = Some z) /\
  decodeVersion (encodeVersion None) = None.
Proof. exact C10_version_roundtrip_proof. Qed.
Print Assumptions C10_version_roundtrip.

Example C10_nonvacuous :
  suffix_of (b "v41") (b "v") (b "4" ++ b "1") /\
  getDraft (b "f") (store_run [SAdd (b "f") (b "v41") (b "x"); SAdd (b "g") [] (b "y"); SAdd (b "f") [] (b "z")])
    = Some (Draft (b "z") (b "v42")) /\
  encodeVersion (Some (-42)%Z) = b "-42".
Proof.
  split; [|split; reflexivity]. split; [reflexivity|]. split.
  - repeat constructor; discriminate.
  - right. exists [], "v"%char. split; [reflexivity|]. intros [_ H]. now apply H.
Qed.

(** ** C59: a request is answered from one consistent snapshot.
    In every interleaving of the main thread's critical sections with reads, what a read-only request gets is the
    text of the document together with the analysis of that same text, and it is the document as it was after some
    prefix of the notifications: all that have been started, or all but the one being handled. *)
Theorem C59_snapshot :
  forall (A : Type) (analyse : bytes -> A) es f r sp,
    mexec A analyse (cinit A, Idle A) (es ++ [Read A f r]) sp ->
    exists ns s pubs,
      (ns = started es \/ exists n, started es = ns ++ [n]) /\
      (snd sp = Idle A -> ns = started es) /\
      onNotifications A analyse ns (cinit A) = Ok (s, pubs) /\
      match r with
      | Some t => option_map dr_contents (getDraft f (drafts A s)) = Some (tu_src A t) /\
                  tu_res A t = analyse (tu_src A t)
      | None => getDraft f (drafts A s) = None
      end.
Proof. exact C59_snapshot_proof. Qed.
Print Assumptions C59_snapshot.

(** A read between the two halves of a change still sees the text before it, with its analysis. *)
Example C59_nonvacuous :
  let an := fun t : bytes => List.length t in
  exists es sp, mexec nat an (cinit nat, Idle nat) (es ++ [Read nat (b "f") (Some (TU nat (b "abc") 3))]) sp /\
    started es = [DidOpen (b "f") None (b "abc"); DidChange (b "f") None [Change None None (b "de")]].
Proof.
  exists [Start nat (DidOpen (b "f") None (b "abc")); Advance nat; Advance nat;
          Start nat (DidChange (b "f") None [Change None None (b "de")])]. eexists. split; [|reflexivity].
  eapply (mexec_snoc _ _ _ [_;_;_;_]).
  eapply (mexec_snoc _ _ _ [_;_;_]); [eapply (mexec_snoc _ _ _ [_;_]); [eapply (mexec_snoc _ _ _ [_]); [eapply (mexec_snoc _ _ _ []); [apply mexec_nil|]|]|]|].
  - apply m_open.
  - apply m_analyse. reflexivity.
  - apply m_insert.
  - eapply m_change; reflexivity.
  - match goal with |- mstep _ _ (?s, ?ph) _ _ => exact (m_read nat _ (b "f") s ph) end.
Qed.
