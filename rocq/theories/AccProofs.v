(** Whole documents. *)
From Verif Require Import Base Diag LexModel LexSpec LexProofs AstModel PSupModel ParseModel ParseFacts GramSpec AccSpec AccBase AccStep AccFun AccOp AccRun.
From Coq Require Import Lia.

Lemma lex_diags s t s' : lex s = Ok (t, s') -> diags s' = [] -> diags s = [].
Proof.
  intros E D. destruct (lex_spec s) as (w & k & v & s1 & s2 & E2 & (_ & _ & n1 & D1 & _) & _ & (_ & _ & n2 & D2 & _) & _). rewrite E in E2. injection E2 as -> <-.
  rewrite D in D2. symmetry in D2. apply app_eq_nil in D2 as [_ D2]. rewrite D2 in D1. symmetry in D1. now apply app_eq_nil in D1.
Qed.
Lemma lex_all_chain n : forall s ts l, lex_all_f n s = Ok (ts, l) -> diags l = [] -> chain s ts /\ diags s = [].
Proof.
  induction n as [|n IH]; intros s ts l E D; cbn [lex_all_f bind] in E; [discriminate|].
  destruct (lex s) as [[t s1]| |] eqn:El; cbn [bind] in E; try discriminate. destruct (tkind_beq (tk t) tok_eof) eqn:Ek.
  - injection E as <- <-. apply internal_tkind_dec_bl in Ek. split; [eapply chain_eof; eauto|eapply lex_diags; eauto].
  - destruct (lex_all_f n s1) as [[ts2 s2]| |] eqn:Er; cbn [bind] in E; try discriminate. injection E as <- <-. destruct (IH _ _ _ Er D) as [C D1].
    split; [eapply chain_cons; eauto|eapply lex_diags; eauto]. intros X. rewrite X in Ek. discriminate.
Qed.
Lemma accepted src t ts l v : lex_all src = Ok (ts, l) -> diags l = [] -> map (fun t => (tk t, tview t)) ts = toks t ++ [(tok_eof, v)] -> wf LExpr t ->
  exists root, parse src = Ok (Some root, []) /\ is_tree t root.
Proof.
  intros E D T W. unfold lex_all in E. destruct (lex_all_chain _ _ _ _ E D) as [C D0].
  assert (A : At false [] (pinit src) (toks t ++ [(tok_eof, v)])).
  { split; [|split]; cbn; auto; [|discriminate]. exists ts. cbn. rewrite <- T. split; [reflexivity|]. split; [now right|]. split; [reflexivity|exact D0]. }
  pose proof (keeps_all src (parse_fuel src) QExpr false [] _ _ (sp_expr _ _ t [(tok_eof, v)] W eq_refl) _ A) as K.
  assert (X : fw (let! e := run src (parse_fuel src) QExpr in let! t := peek 0 in
     do! (if tkind_beq (tk t) tok_eof then ret tt else emit (diag0 DK_UnexpectedText (trange t))) in ret e) (pinit src)
     (fun o s => (exists n, o = Some n /\ is_tree t n) /\ diags (plex s) = [])).
  { apply fw_bind. eapply fw_mono; [exact K|]. intros o s (l' & [-> (n & -> & N)] & A'). apply fw_bind.
    eapply fw_peek; [exact A'|reflexivity|]. clear s A'. intros t1 s T1 _ A'. rewrite T1, kbeq. apply fw_bind. apply fw_ret. apply fw_ret.
    split; [eauto|]. destruct A' as ((ts' & _ & _ & _ & D') & _). exact D'. }
  pose proof (C17_terminates_proof src) as Fu. unfold parse in *. unfold fw in X. fold (parse_st src) in X. destruct (parse_st src) as [[o s]| |]; try contradiction.
  destruct X as [(n & -> & N) D']. exists n. rewrite D'. auto.
Qed.
