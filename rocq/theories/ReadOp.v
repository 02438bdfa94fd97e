(** Reading back operator expressions: string literals joined by binary operators. *)
From Verif Require Import Base Diag LexModel LexSpec AstModel PSupModel SemaModel ParseModel LexProofs ConnModel ActModel ActSpec ReadTools ReadString ReadJson ReadJson2 GramSpec OpSpec.

Definition lbp (k : tkind) : nat := match getBP k with Some (l, _) => l | None => 0 end.
Definition rbp (k : tkind) : nat := match getBP k with Some (_, r) => r | None => 0 end.
Fixpoint fits (t : optree) : Prop :=
  match t with
  | Lit _ => True
  | Infix k l r => In k binops /\ Forall (fun o => lbp k < rbp o) (rights l) /\ Forall (fun o => rbp k < lbp o) (lefts r) /\ fits l /\ fits r
  end.

(** what follows an operand *)
Definition after (x : bytes) (k : tkind) : Prop :=
  stops x /\ In k (tok_semi_colon :: tok_eof :: binops) /\ exists v r, lexes PS_Expr x k v r.

Lemma lexes_op k y : In k binops -> lexes PS_Expr (b " " ++ spelling k ++ b " " ++ y) k (spelling k) (b " " ++ y).
Proof.
  intros H c ds. unfold binops in H. cbn in H.
  repeat (destruct H as [<-|H]; [
    match goal with |- context [spelling ?k] => let v := eval vm_compute in (spelling k) in change (spelling k) with v end;
    eexists _, _; split; [|split] |]); [..|destruct H].
  all: try reflexivity.
  all: match goal with |- tview _ = ?v => exact (slice_adv (adv " " c) v (b " " ++ y) ds ds) end.
Qed.

Lemma after_op k y : In k binops -> after (b " " ++ spelling k ++ b " " ++ y) k.
Proof. intros H. split; [apply stops_sp|]. split; [right; right; exact H|]. eexists _, _. apply (lexes_op k y H). Qed.
Lemma after_end : after [] tok_eof.
Proof. split; [exact I|]. split; [right; left; reflexivity|]. eexists _, _. now apply (lexes_eof []). Qed.

Section Src.
Variable src : bytes.
Notation reads := (ReadString.reads src).
Notation run := (ParseModel.run src).

Lemma after_undotted x k : after x k -> undotted x.
Proof.
  intros (_ & H & v & r & L). exists k, v, r. split; [exact L|]. intros ->. cbn in H. intuition discriminate.
Qed.

Lemma select_nothing m ms sy ds x k j s : mode_of ms = PS_Expr -> after x k -> St ms sy ds x j s ->
  ends (run (S (S m)) QSelect) s (fun a s' => a = None /\ St ms sy ds x (Nat.max j 1) s' /\ plast s' = plast s).
Proof.
  intros M (_ & K & v & r & L) S. rewrite run_S. cbn [ParseModel.step]. unfold parseExprSelect. rewrite run_S. cbn [ParseModel.step].
  apply ends_bind. unfold parseExprSimple.
  apply ends_bind. eapply ends_peek0; [exact S|rewrite M; exact L|]. intros t s2 K2 V2 S2 P2 _.
  rewrite K2. cbn in K. repeat (destruct K as [<-|K]; [apply ends_ret; apply ends_ret; auto|]). destruct K.
Qed.

Lemma app_stops m ms sy ds r j V x k : mode_of ms = PS_Expr -> after x k ->
  reads m QSelect ms sy ds r j V x 1 -> 3 <= m -> reads (S m) QApp ms sy ds r j V x 1.
Proof.
  intros M C H K s S. rewrite run_S. cbn [ParseModel.step]. unfold parseExprApp.
  apply ends_bind. eapply ends_mono; [apply H; exact S|]. intros a s1 (n & -> & Vn & S1 & B1).
  destruct (maybeLambda n).
  - destruct m as [|m]; [lia|]. rewrite run_S. cbn [ParseModel.step]. unfold parseExprAppLoop.
    destruct m as [|[|m]]; [lia|lia|]. apply ends_bind.
    eapply ends_mono; [eapply select_nothing; [exact M|exact C|exact S1]|]. intros a s2 (-> & S2 & P2).
    apply ends_ret. exists n. split; [reflexivity|]. split; [exact Vn|]. split; [exact S2|unfold begun; congruence].
  - apply ends_ret. exists n. split; [reflexivity|]. auto.
Qed.

Lemma denotes_string n x : denotes n (JString x) -> string_value n x.
Proof. intros D. inversion D; subst; try (match goal with H : number_of _ _ |- _ => destruct H as [X|X]; discriminate end); assumption. Qed.

(** reading the text of [t] as an operand of binding power [p] comes down to the loop, with the tree of [t] *)
Lemma op_loop t : fits t -> forall p w x k m M ms sy ds j s (QQ : option node -> pst -> Prop),
  mode_of ms = PS_Expr -> blanks w -> after x k -> Forall (fun o => lbp k < rbp o) (rights t) ->
  Forall (fun o => p < lbp o) (lefts t) -> 20 * List.length (optext t) + 20 + M <= m -> j <= 1 ->
  St ms sy ds (w ++ optext t ++ x) j s ->
  (forall m' n s', M <= m' -> opshape t n -> St ms sy ds x 1 s' -> begun s' -> ends (run m' (QOpLoop p n)) s' QQ) ->
  ends (run m (QOp p)) s QQ.
Proof.
  induction t as [y|o l IHl r IHr]; intros F p w x k m M ms sy ds j s QQ Mo W A R L Fu J S H.
  - destruct m as [|m]; [lia|]. rewrite run_S. cbn [ParseModel.step]. unfold parseExprOpBP.
    assert (LX : lexes PS_Expr (w ++ lit y ++ x) tok_dquote [Q] (escapeNixString y ++ Q :: x)).
    { unfold lit. rewrite <- !app_assoc. apply lexes_punct; [exact W|inp]. }
    cbn [optext] in *.
    apply ends_bind. unfold lCur. apply ends_bind. eapply ends_peek0; [exact S|rewrite Mo; exact LX|]. intros t s1 K1 V1 S1 P1 _. apply ends_ret.
    apply ends_bind. eapply ends_peek0; [exact S1|rewrite Mo; exact LX|]. intros t2 s2 K2 V2 S2 P2 _. rewrite K2.
    apply ends_bind. destruct (string_value_reads src (fun _ => false) y) as (Sm & _ & _). fold (lit y) in Sm.
    assert (G : reads m QApp ms sy ds (w ++ lit y ++ x) 1 (fun n => denotes n (JString y)) x 1).
    { destruct m as [|[|m]]; [lia|lia|]. eapply app_stops; [exact Mo|exact A| |lia].
      change 1 with (Nat.max 1 1) at 2. apply select_reads; [exact Mo|eapply after_undotted; exact A|].
      apply Sm; auto; [intros (z & [E|E] & _); discriminate|apply A|lia]. }
    eapply ends_mono; [apply G; eapply St_more; [exact S2|lia]|]. intros a s3 (n & -> & Dn & S3 & B3).
    apply H; auto; [lia|]. now apply denotes_string.
  - cbn [optext rights lefts fits] in *. destruct F as (Ho & Fr & Fl & Gl & Gr).
    inversion R as [|? ? R1 R2]; subst. inversion L as [|? ? L1 L2]; subst.
    rewrite !app_length in Fu. cbn [b list_ascii_of_string List.length] in Fu.
    assert (E : w ++ (optext l ++ b " " ++ spelling o ++ b " " ++ optext r) ++ x = w ++ optext l ++ (b " " ++ spelling o ++ b " " ++ optext r ++ x)).
    { now rewrite <- !app_assoc. }
    rewrite E in S. clear E.
    eapply (IHl Gl p w (b " " ++ spelling o ++ b " " ++ optext r ++ x) o m (20 * List.length (optext r) + 30 + M) ms sy ds j s QQ);
      [exact Mo|exact W|now apply after_op|exact Fr|exact L2| |exact J|exact S|].
    { lia. }
    intros m1 nl0 s1 M1 Sl S1 B1. destruct m1 as [|m1]; [lia|]. rewrite run_S. cbn [ParseModel.step]. unfold parseExprOpLoop.
    pose proof (lexes_op o (optext r ++ x) Ho) as LO.
    apply ends_bind. eapply ends_peek0; [exact S1|rewrite Mo; exact LO|]. intros t2 s2 K2 V2 S2 P2 _. rewrite K2.
    assert (KO : isBinOp o = true /\ exists lb rb, getBP o = Some (lb, rb) /\ lbp o = lb /\ rbp o = rb).
    { unfold binops in Ho. cbn in Ho. repeat (destruct Ho as [<-|Ho]; [split; [reflexivity|eexists _, _; repeat split]|]). destruct Ho. }
    destruct KO as (Kb & lb & rb & Eb & El & Er). rewrite Kb, Eb.
    replace (Nat.ltb lb p) with false by (symmetry; apply Nat.ltb_ge; lia).
    replace (Nat.eqb p lb) with false by (symmetry; apply Nat.eqb_neq; lia).
    apply ends_bind. apply ends_ret.
    apply ends_bind. eapply ends_consume; [eapply St_more; [exact S2|]|rewrite Mo; exact LO|]; [apply Nat.le_refl|].
    intros s3 S3 B3.
    apply ends_bind. apply ends_assertLast; [exact B3|].
    apply ends_bind. eapply ends_fresh; [exact S3|]. intros io s4 S4 P4.
    apply ends_bind.
    eapply (IHr Gr rb (b " ") x k m1 1 ms sy ds _ s4); [exact Mo|reflexivity|exact A|exact R2|rewrite <- Er; exact Fl|lia| |exact S4|].
    { lia. }
    intros m2 nr0 s5 M2 Sr S5 B5. destruct m2 as [|m2]; [lia|]. rewrite run_S. cbn [ParseModel.step]. unfold parseExprOpLoop.
    destruct A as (Ax & Ak & v & rr & LA).
    apply ends_bind. eapply ends_peek0; [exact S5|rewrite Mo; exact LA|]. intros t6 s6 K6 V6 S6 P6 _. rewrite K6.
    assert (FIN : forall s7 n, St ms sy ds x 1 s7 -> begun s7 -> opshape (Infix o l r) n -> ends (run m1 (QOpLoop p n)) s7 QQ).
    { intros s7 n S7 B7 Hn. apply H; auto. lia. }
    assert (NEXT : ends (let! i := fresh in run m1 (QOpLoop p (NBinOp i (mkRange (nl nl0) (nr nr0)) (NOp io (trange t2) o) (Some nl0) (Some nr0)))) s6 QQ).
    { apply ends_bind. eapply ends_fresh; [exact S6|]. intros i s7 S7 P7. apply FIN.
      - eapply St_more; [exact S7|lia].
      - unfold begun in *. congruence.
      - cbn [opshape]. eexists _, _, _, _, _, _. split; [reflexivity|]. auto. }
    cbn in Ak. destruct Ak as [<-|[<-|Ak]].
    + cbn [isBinOp]. apply ends_ret. exact NEXT.
    + cbn [isBinOp]. apply ends_ret. exact NEXT.
    + assert (KB : isBinOp k = true /\ exists rb', getBP k = Some (lbp k, rb')).
      { repeat (destruct Ak as [<-|Ak]; [split; [reflexivity|eexists; reflexivity]|]). destruct Ak. }
      destruct KB as (-> & rb' & ->). replace (Nat.ltb (lbp k) rb) with true by (symmetry; apply Nat.ltb_lt; lia).
      apply ends_ret. exact NEXT.
Qed.

Lemma expr_reads t w m ms sy ds : fits t -> mode_of ms = PS_Expr -> blanks w -> 20 * List.length (optext t) + 30 <= m ->
  reads m QExpr ms sy ds (w ++ optext t) 0 (opshape t) [] 1.
Proof.
  intros F Mo W Fu s S. destruct m as [|m]; [lia|]. rewrite run_S. cbn [ParseModel.step]. unfold parseExpr.
  assert (LX : exists r, lexes PS_Expr (w ++ optext t) tok_dquote [Q] r).
  { clear - W. assert (G : forall x, exists r, lexes PS_Expr (w ++ optext t ++ x) tok_dquote [Q] r).
    { induction t as [y|o l IHl r IHr]; intros x.
      - eexists. cbn [optext]. unfold lit. rewrite <- !app_assoc. apply lexes_punct; [exact W|inp].
      - destruct (IHl ((b " " ++ spelling o ++ b " " ++ optext r) ++ x)) as [r' E]. exists r'. cbn [optext]. rewrite <- !app_assoc in *. exact E. }
    destruct (G []) as [r E]. exists r. now rewrite app_nil_r in E. }
  destruct LX as [r LX].
  apply ends_bind. unfold peekk at 1. apply ends_bind.
  eapply ends_peek0; [exact S|rewrite Mo; exact LX|]. intros t1 s1 K1 V1 S1 P1 _. apply ends_ret. rewrite K1.
  eapply (op_loop t F 0 w [] tok_eof m 1 ms sy ds 1 s1); [exact Mo|exact W|apply after_end| | |lia|lia|rewrite app_nil_r; exact S1|].
  - clear - F. induction t as [y|o l IHl r0 IHr]; [constructor|]. cbn in *. constructor; [|apply IHr, F].
    destruct F as (Ho & _). unfold binops in Ho. cbn in Ho. repeat (destruct Ho as [<-|Ho]; [vm_compute; lia|]). destruct Ho.
  - clear - F. induction t as [y|o l IHl r0 IHr]; [constructor|]. cbn in *. constructor; [|apply IHl, F].
    destruct F as (Ho & _). unfold binops in Ho. cbn in Ho. repeat (destruct Ho as [<-|Ho]; [vm_compute; lia|]). destruct Ho.
  - intros m' n s' M' Hn S' B'. destruct m' as [|m']; [lia|].
    eapply ends_mono; [eapply oploop_ends; [exact Mo|apply closes_end|exact S']|]. intros a s2 (-> & S2 & P2).
    exists n. split; [reflexivity|]. split; [exact Hn|]. split; [exact S2|unfold begun in *; congruence].
Qed.
End Src.

Lemma optree_parses t : fits t -> exists n, parse (optext t) = Ok (Some n, []) /\ opshape t n.
Proof.
  intros F. set (src := optext t).
  assert (S0 : St [PS_Expr] [] [] src 0 (pinit src)).
  { split; [reflexivity|]. split; [discriminate|]. split; [reflexivity|]. split; [cbn; lia|]. eexists. constructor. }
  assert (G : ends (let! e := ParseModel.run src (parse_fuel src) QExpr in
     let! tt0 := peek 0 in
     do! (if tkind_beq (tk tt0) tok_eof then ret tt else emit (diag0 DK_UnexpectedText (trange tt0))) in ret e) (pinit src)
    (fun a s => exists n, a = Some n /\ opshape t n /\ diags (plex s) = [])).
  { apply ends_bind. eapply ends_mono.
    { apply (expr_reads src t [] (parse_fuel src) [PS_Expr] [] [] F); [reflexivity|reflexivity|unfold parse_fuel, src; lia|exact S0]. }
    intros a s (n & -> & Dn & S1 & B1).
    assert (LE : lexes PS_Expr [] tok_eof [] []) by now apply (lexes_eof []).
    apply ends_bind. eapply ends_peek0; [exact S1|exact LE|]. intros t2 s2 K2 V2 S2 P2 PB. rewrite K2. cbn [tkind_beq].
    apply ends_bind. apply ends_ret. apply ends_ret. exists n. split; [reflexivity|]. split; [exact Dn|].
    destruct S2 as (_ & _ & _ & LN & c & LK).
    destruct (pbuf s2) as [|x [|y bf]]; [cbn in PB; lia| |cbn in LN; lia].
    inversion LK as [|l tk1 l1 ts l2 LX LK2]; subst. inversion LK2; subst.
    destruct (LE c []) as (t' & c' & LL & _). cbn [mode_of hd] in LX. rewrite LL in LX. injection LX as _ <-. reflexivity. }
  destruct G as (a & s & R & n & -> & Dn & Ds).
  exists n. split; [|exact Dn]. unfold parse, parse_st. rewrite R, Ds. reflexivity.
Qed.

Lemma table_powers k1 k2 : In k1 binops -> In k2 binops ->
  (closes (Bin k1) (Bin k2) -> ~ misgrouped (Bin k1) (Bin k2) -> lbp k2 < rbp k1) /\
  (nests (Bin k1) (Bin k2) -> ~ misgrouped (Bin k1) (Bin k2) -> rbp k1 < lbp k2).
Proof.
  intros H1 H2.
  set (mis := fun k1 k2 => (existsb (tkind_beq k1) [tok_op_mul; tok_op_div; tok_op_concat] && tkind_beq k2 tok_op_div ||
    tkind_beq k1 tok_op_pipe_into && tkind_beq k2 tok_op_pipe_into || tkind_beq k1 tok_op_pipe_from && tkind_beq k2 tok_op_pipe_from)%bool).
  set (cl := fun k1 k2 => match documented_op (Bin k1), documented_op (Bin k2) with
    | Some (n1, a1), Some (n2, a2) => (Nat.ltb n2 n1 || Nat.eqb n1 n2 && match a1, a2 with LeftA, LeftA => true | _, _ => false end)%bool
    | _, _ => false end).
  set (ne := fun k1 k2 => match documented_op (Bin k1), documented_op (Bin k2) with
    | Some (n1, a1), Some (n2, a2) => (Nat.ltb n1 n2 || Nat.eqb n1 n2 && match a1, a2 with RightA, RightA => true | _, _ => false end)%bool
    | _, _ => false end).
  assert (T : forallb (fun k1 => forallb (fun k2 => (mis k1 k2 || (implb (cl k1 k2) (Nat.ltb (lbp k2) (rbp k1)) && implb (ne k1 k2) (Nat.ltb (rbp k1) (lbp k2))))%bool) binops) binops = true) by (vm_compute; reflexivity).
  rewrite forallb_forall in T. specialize (T k1 H1). rewrite forallb_forall in T. specialize (T k2 H2). cbv beta in T.
  assert (M : mis k1 k2 = true -> misgrouped (Bin k1) (Bin k2)).
  { unfold mis. intros M. apply orb_true_iff in M as [M|M]; [apply orb_true_iff in M as [M|M]|]; apply andb_true_iff in M as [M1 M2].
    - apply existsb_exists in M1 as (z & Z & E). apply internal_tkind_dec_bl in E, M2. subst. now constructor.
    - apply internal_tkind_dec_bl in M1, M2. subst. constructor.
    - apply internal_tkind_dec_bl in M1, M2. subst. constructor. }
  split; intros (n1 & a1 & n2 & a2 & E1 & E2 & C) N; (apply orb_true_iff in T as [T|T]; [exfalso; auto|]); apply andb_true_iff in T as [T1 T2].
  - assert (X : cl k1 k2 = true).
    { unfold cl. rewrite E1, E2. apply orb_true_iff. destruct C as [C|(-> & -> & ->)]; [left; now apply Nat.ltb_lt|right]. now rewrite Nat.eqb_refl. }
    rewrite X in T1. cbn in T1. now apply Nat.ltb_lt.
  - assert (X : ne k1 k2 = true).
    { unfold ne. rewrite E1, E2. apply orb_true_iff. destruct C as [C|(-> & -> & ->)]; [left; now apply Nat.ltb_lt|right]. now rewrite Nat.eqb_refl. }
    rewrite X in T2. cbn in T2. now apply Nat.ltb_lt.
Qed.
Lemma by_table_ops t : by_table t -> (forall o, In o (lefts t) -> In o binops) /\ (forall o, In o (rights t) -> In o binops).
Proof.
  induction t as [x|k l IHl r IHr]; [split; intros o []|]. intros (K & Hl & Hr & _). destruct (IHl Hl) as [L1 _]. destruct (IHr Hr) as [_ R2].
  split; cbn [lefts rights]; intros o [<-|H]; auto.
Qed.
Lemma by_table_fits t : by_table t -> fits t.
Proof.
  induction t as [x|k l IHl r IHr]; [exact (fun _ => I)|]. intros (K & Hl & Hr & C & N).
  destruct (by_table_ops l Hl) as [_ Rl]. destruct (by_table_ops r Hr) as [Lr _].
  repeat split; auto.
  - apply Forall_forall. intros o O. destruct (C o O). apply (proj1 (table_powers o k (Rl o O) K)); assumption.
  - apply Forall_forall. intros o O. destruct (N o O). apply (proj2 (table_powers k o K (Lr o O))); assumption.
Qed.
