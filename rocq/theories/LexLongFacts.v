(** Proofs of the theorems stated in LexLongProps. *)
From Verif Require Import Base Diag LexModel LexSpec LexProofs LexLongSpec LexLongProofs LexLongDiags.

Lemma C66_proof :
  forall src s ts m t s', session src s ts -> lex_mode m s = Ok (t, s') -> longest m (tk t) (tview t) (rest s').
Proof.
  intros src s ts m t s' _. apply longest_mode.
Qed.

Lemma C67_proof :
  forall src s ts m t s', session src s ts -> lex_mode m s = Ok (t, s') ->
  exists new, diags s' = new ++ diags s /\ NoDup new /\ (m <> PS_Expr -> new = []) /\
    (m = PS_Expr -> forall d, In d new <-> lexical_error src (off (cur s)) (rest s) t d).
Proof.
  exact errors_lemma.
Qed.
