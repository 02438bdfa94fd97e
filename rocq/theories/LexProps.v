(** Properties C01-C05 of the tokeniser. *)
From Verif Require Import Base Diag LexModel LexSpec LexProofs LexFacts.

(** ** C01: tokenising never reads outside the document.
    False: a document that ends in a backslash inside a string makes the tokeniser advance past the end. *)
Theorem C01_refuted :
  (exists src ts s why, session src s ts /\ lex_mode PS_String s = Crash why) /\
  (exists src ts s why, session src s ts /\ lex_mode PS_IndString s = Crash why).
Proof. exact C01_refuted_proof. Qed.
Print Assumptions C01_refuted.

(** What holds: after any history, a token request in any mode succeeds, except exactly when what is left of the
    document is a lone backslash (in a string) or [''\] (in an indented string); moving the cursor inside the
    document always succeeds.  Missing from the full property: those two documents' ends. *)
Theorem C01_partial :
  forall src s ts, session src s ts ->
    (forall m,
      let left := skipn (off (cur s)) src in
      let bad := (m = PS_String /\ left = b "\") \/ (m = PS_IndString /\ left = b "''\") in
      (~ bad -> exists t s', lex_mode m s = Ok (t, s')) /\
      (bad -> exists why, lex_mode m s = Crash why)) /\
    (forall c, cursor_in src c -> exists s', setCur src c s = Ok s').
Proof. exact C01_partial_proof. Qed.
Print Assumptions C01_partial.

(** A session that switches modes, and the mode is not a crashing one. *)
Example C01_nonvacuous :
  exists s ts, session (b "a ""b\n${c}""") s ts /\ List.length ts = 4 /\
    skipn (off (cur s)) (b "a ""b\n${c}""") = b "${c}""".
Proof.
  do 2 eexists. split; [|split].
  - eapply (session_lex _ PS_String). eapply (session_lex _ PS_String).
    eapply (session_lex _ PS_Expr). eapply (session_lex _ PS_Expr). apply session_start.
    all: vm_compute; reflexivity.
  - reflexivity.
  - reflexivity.
Qed.

(** ** C02: progress. *)
Theorem C02_progress :
  forall src s ts m t s', session src s ts -> lex_mode m s = Ok (t, s') -> off (cur s) < List.length src ->
    off (cur s) < off (cur s') \/ tk t = tok_path_end.
Proof. exact C02_progress_proof. Qed.
Print Assumptions C02_progress.

(** Tokenising a whole document reaches the end-of-file token after at most length + 1 requests: the loop
    [lex_all], which asks until it gets the end of file, neither crashes nor runs out of its length + 1 steps. *)
Theorem C02_terminates :
  forall src, exists ts s, lex_all src = Ok (ts, s) /\ List.length ts <= List.length src + 1 /\
    exists init last, ts = init ++ [last] /\ tk last = tok_eof.
Proof. exact C02_terminates_proof. Qed.
Print Assumptions C02_terminates.

Example C02_nonvacuous :
  match lex_all (b "let a=1;/*c*/in ~") with Ok (ts, _) => List.length ts = 8 | _ => False end.
Proof. vm_compute. reflexivity. Qed.

(** ** C03: tokens are faithful, ordered, disjoint slices; only trivia lies between them. *)
Theorem C03_faithful :
  forall src s ts, session src s ts -> Forall (token_faithful src) ts.
Proof. exact C03_faithful_proof. Qed.
Print Assumptions C03_faithful.

Theorem C03_tiling : forall src ts s, lex_all src = Ok (ts, s) -> tiled 0 src ts.
Proof. exact C03_tiling_proof. Qed.
Print Assumptions C03_tiling.

Example C03_nonvacuous :
  match lex_all (b "a # x
 /* y */ ++ <nixpkgs> /* open") with
  | Ok (ts, _) => map tview ts = [b "a"; b "++"; b "<nixpkgs>"; []]
  | _ => False end.
Proof. vm_compute. reflexivity. Qed.

(** ** C04: reported lines and columns are those of the offset. *)
Theorem C04_line_column :
  forall src s ts, session src s ts ->
    cursor_in src (cur s) /\
    Forall (fun t => cursor_in src (lcur (trange t)) /\ cursor_in src (rcur (trange t))) ts /\
    Forall (fun d => Forall (cursor_in src) (diag_cursors d)) (diags s).
Proof. exact C04_line_column_proof. Qed.
Print Assumptions C04_line_column.

(** The specification of a cursor determines line and column from the offset. *)
Theorem C04_cursor_unique :
  forall src c d, cursor_in src c -> cursor_in src d -> off c = off d -> c = d.
Proof. exact C04_cursor_unique_proof. Qed.
Print Assumptions C04_cursor_unique.

Example C04_nonvacuous :
  match lex_all (b "1
  00.5e
/*") with
  | Ok (ts, s) => map (fun t => (line (lcur (trange t)), col (lcur (trange t)))) ts = [(0,0);(1,2);(2,2)]
                  /\ List.length (diags s) = 3
  | _ => False end.
Proof. vm_compute. auto. Qed.

(** ** C05: kinds and spellings agree.
    False: [|||>] is one token of kind "pipe into", and [<a/>] is an angle-bracket path although the grammar
    that the lexer documents (Lexer.cpp:288) does not allow a slash before the bracket. *)
Theorem C05_refuted :
  ~ spelling_claim /\
  (exists t s, lex (lex_init (b "|||>")) = Ok (t, s) /\ tk t = tok_op_pipe_into /\ tview t = b "|||>") /\
  (exists t s, lex (lex_init (b "<a/>")) = Ok (t, s) /\ tk t = tok_spath /\ tview t = b "<a/>").
Proof. exact C05_refuted_proof. Qed.
Print Assumptions C05_refuted.

(** What holds: those are the only two exceptions.  Missing from the full property: [|||>] and angle-bracket
    paths ending in [/>]. *)
Theorem C05_partial :
  forall s m t s', lex_mode m s = Ok (t, s') ->
    spelled m (tk t) (tview t) \/
    (m = PS_Expr /\ tk t = tok_op_pipe_into /\ tview t = b "|||>") \/
    (m = PS_Expr /\ tk t = tok_spath /\ exists v, tview t = b "<" ++ v ++ b "/>").
Proof. exact C05_partial_proof. Qed.
Print Assumptions C05_partial.

Example C05_nonvacuous :
  match lex_all (b "ifx then x'-y <nixpkgs/lib> 1.5e+3 http://a ./b") with
  | Ok (ts, _) => map tk ts =
      [tok_id; tok_kw_then; tok_id; tok_spath; tok_float; tok_uri; tok_path_fragment; tok_id; tok_eof]
  | _ => False end.
Proof. vm_compute. reflexivity. Qed.
