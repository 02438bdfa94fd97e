(** Properties C66 and C67: where tokens end, and what the lexer reports. *)
From Verif Require Import Base Diag LexModel LexSpec LexProofs LexLongSpec LexLongProofs LexLongDiags LexLongFacts.

(** C66. A token ends where the language says: no keyword, operator or punctuation that starts at the same place is
    longer, words and numbers do not stop in the middle, string parts stop only before what may end them, and path
    pieces are maximal. *)
Theorem C66 :
  forall src s ts m t s', session src s ts -> lex_mode m s = Ok (t, s') -> longest m (tk t) (tview t) (rest s').
Proof. exact C66_proof. Qed.
Print Assumptions C66.

Example C66_nonvacuous :
  exists t s', lex_mode PS_Expr (lex_init (b "foo'bar ++ 1.5")) = Ok (t, s') /\ tk t = tok_id /\
    tview t = b "foo'bar" /\ rest s' = b " ++ 1.5" /\
  exists t2 s2, lex_mode PS_Expr s' = Ok (t2, s2) /\ tk t2 = tok_op_concat /\ rest s2 = b " 1.5".
Proof.
  do 2 eexists. split; [vm_compute; reflexivity|]. repeat split. do 2 eexists. split; [vm_compute; reflexivity|]. split; reflexivity.
Qed.

(** C67. The diagnostics the lexer adds while reading a token are exactly the lexical errors, each once, with its
    range, arguments, note and fix: a block comment that is never closed, a float with a leading zero, a float
    whose exponent has no digits. *)
Theorem C67 :
  forall src s ts m t s', session src s ts -> lex_mode m s = Ok (t, s') ->
  exists new, diags s' = new ++ diags s /\ NoDup new /\ (m <> PS_Expr -> new = []) /\
    (m = PS_Expr -> forall d, In d new <-> lexical_error src (off (cur s)) (rest s) t d).
Proof. exact C67_proof. Qed.
Print Assumptions C67.

Example C67_nonvacuous :
  exists t s', lex_mode PS_Expr (lex_init (b "007.5e+ x")) = Ok (t, s') /\ tk t = tok_float /\ List.length (diags s') = 2 /\
  exists t2 s2, lex_mode PS_Expr (lex_init (b "# c" ++ [lf] ++ b " /* open")) = Ok (t2, s2) /\ tk t2 = tok_eof /\
    List.length (diags s2) = 1.
Proof.
  do 2 eexists. split; [vm_compute; reflexivity|]. repeat split. do 2 eexists. split; [vm_compute; reflexivity|]. split; reflexivity.
Qed.
