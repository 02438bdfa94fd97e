(** Reading back the text of jsonToNix: values. *)
From Verif Require Import Base Diag LexModel AstModel PSupModel SemaModel ParseModel LexProofs SemaProofs ConnModel ConnProofs ActModel ActSpec ReadTools ReadString ReadJson.

(** what follows a complete expression: a semicolon or the end *)
Definition closes (x : bytes) : Prop :=
  stops x /\ exists k v r, lexes PS_Expr x k v r /\ (k = tok_semi_colon \/ k = tok_eof).
(** what follows a simple expression: anything but a dot *)
Definition undotted (x : bytes) : Prop := exists k v r, lexes PS_Expr x k v r /\ k <> tok_dot.
Lemma closes_undotted x : closes x -> undotted x.
Proof. intros (_ & k & v & r & L & [->| ->]); (eexists _, v, r; split; [exact L|discriminate]). Qed.
Lemma closes_semi x : closes (";"%char :: x).
Proof.
  split; [apply stops_semi|]. exists tok_semi_colon, [";"%char], x. split; [|now left].
  apply (lexes_punct [] ";"%char); [reflexivity|inp].
Qed.
Lemma closes_end : closes [].
Proof. split; [exact I|]. exists tok_eof, [], []. split; [|now right]. now apply lexes_eof. Qed.

Section Src.
Variable src : bytes.
Variable bare : bytes -> bool.
Notation reads := (reads src).
Notation run := (run src).

Lemma select_reads m ms sy ds r j V x j' : mode_of ms = PS_Expr -> undotted x ->
  reads m QSimple ms sy ds r j V x j' -> reads (S m) QSelect ms sy ds r j V x (Nat.max j' 1).
Proof.
  intros M (k & v & r0 & L & N) H s S. rewrite run_S. cbn [ParseModel.step]. unfold parseExprSelect.
  apply ends_bind. eapply ends_mono; [apply H; exact S|]. intros a s1 (n & -> & Vn & S1 & B1).
  apply ends_bind. apply ends_assertLast; [exact B1|].
  apply ends_bind. eapply ends_peek0; [exact S1|rewrite M; exact L|]. intros t s2 K2 V2 S2 P2 _.
  replace (negb (tkind_beq (tk t) tok_dot)) with true.
  - apply ends_ret. exists n. split; [reflexivity|]. split; [exact Vn|]. split; [exact S2|unfold begun; congruence].
  - rewrite K2. destruct k; try reflexivity. congruence.
Qed.

Lemma select_none m ms sy ds x j s : mode_of ms = PS_Expr -> closes x -> St ms sy ds x j s ->
  ends (run (S (S m)) QSelect) s (fun a s' => a = None /\ St ms sy ds x (Nat.max j 1) s' /\ plast s' = plast s).
Proof.
  intros M (_ & k & v & r & L & K) S. rewrite run_S. cbn [ParseModel.step]. unfold parseExprSelect. rewrite run_S. cbn [ParseModel.step].
  apply ends_bind. unfold parseExprSimple.
  apply ends_bind. eapply ends_peek0; [exact S|rewrite M; exact L|]. intros t s2 K2 V2 S2 P2 _.
  rewrite K2. destruct K as [->| ->]; apply ends_ret; apply ends_ret; auto.
Qed.

Lemma app_reads m ms sy ds r j V x : mode_of ms = PS_Expr -> closes x ->
  reads m QSelect ms sy ds r j V x 1 -> 3 <= m -> reads (S m) QApp ms sy ds r j V x 1.
Proof.
  intros M C H K s S. rewrite run_S. cbn [ParseModel.step]. unfold parseExprApp.
  apply ends_bind. eapply ends_mono; [apply H; exact S|]. intros a s1 (n & -> & Vn & S1 & B1).
  destruct (maybeLambda n).
  - destruct m as [|m]; [lia|]. rewrite run_S. cbn [ParseModel.step]. unfold parseExprAppLoop.
    destruct m as [|[|m]]; [lia|lia|]. apply ends_bind.
    eapply ends_mono; [eapply select_none; [exact M|exact C|exact S1]|]. intros a s2 (-> & S2 & P2).
    apply ends_ret. exists n. split; [reflexivity|]. split; [exact Vn|]. split; [exact S2|unfold begun; congruence].
  - apply ends_ret. exists n. split; [reflexivity|]. auto.
Qed.

Lemma oploop_ends m bp n ms sy ds x j s : mode_of ms = PS_Expr -> closes x -> St ms sy ds x j s ->
  ends (run (S m) (QOpLoop bp n)) s (fun a s' => a = Some n /\ St ms sy ds x (Nat.max j 1) s' /\ plast s' = plast s).
Proof.
  intros M (_ & k & v & r & L & K) S. rewrite run_S. cbn [ParseModel.step]. unfold parseExprOpLoop.
  apply ends_bind. eapply ends_peek0; [exact S|rewrite M; exact L|]. intros t s2 K2 V2 S2 P2 _.
  rewrite K2. destruct K as [->| ->]; cbn [isBinOp]; apply ends_ret; auto.
Qed.

(** an operand that does not start with a unary operator *)
Lemma op_reads m bp ms sy ds r j V x k v r1 : mode_of ms = PS_Expr -> closes x ->
  lexes PS_Expr r k v r1 -> k <> tok_op_not -> k <> tok_op_negate ->
  reads m QApp ms sy ds r (Nat.max j 1) V x 1 -> 1 <= m -> reads (S m) (QOp bp) ms sy ds r j V x 1.
Proof.
  intros M C L N1 N2 H K s S. rewrite run_S. cbn [ParseModel.step]. unfold parseExprOpBP.
  apply ends_bind. unfold lCur. apply ends_bind. eapply ends_peek0; [exact S|rewrite M; exact L|]. intros t s1 K1 V1 S1 P1 _. apply ends_ret.
  apply ends_bind. eapply ends_peek0; [exact S1|rewrite M; exact L|]. intros t2 s2 K2 V2 S2 P2 _.
  apply ends_bind.
  assert (E : ends (run m QApp) s2 (fun a s' => exists n, a = Some n /\ V n /\ St ms sy ds x 1 s' /\ begun s')).
  { apply H. eapply St_more; [exact S2|lia]. }
  assert (G : ends (run m QApp) s2 (fun a s' => ends (match a with None => ret None | Some p => run m (QOpLoop bp p) end) s'
     (fun a s' => exists n, a = Some n /\ V n /\ St ms sy ds x 1 s' /\ begun s'))).
  { eapply ends_mono; [exact E|]. intros a s3 (n & -> & Vn & S3 & B3). destruct m as [|m]; [lia|].
    eapply ends_mono; [eapply oploop_ends; [exact M|exact C|exact S3]|]. intros a s4 (-> & S4 & P4).
    exists n. split; [reflexivity|]. split; [exact Vn|]. split; [exact S4|unfold begun; congruence]. }
  rewrite K2. destruct k; try exact G; congruence.
Qed.

(** ** the values *)

Definition maxj (v : json) : nat :=
  match v with
  | JNull | JBool _ => 2
  | JObject [] => 3
  | JObject ((k, _) :: _) => if bare k then 3 else 2
  | _ => 1
  end.

Definition Simple (v : json) (t : bytes) : Prop := ~ negative v ->
  forall w x m ms sy ds j, mode_of ms = PS_Expr -> blanks w -> stops x -> 10 * List.length t + 10 <= m -> j <= maxj v ->
    reads m QSimple ms sy ds (w ++ t ++ x) j (fun n => denotes n v) x 1.
Definition Expr (v : json) (t : bytes) : Prop :=
  forall w x m ms sy ds j, mode_of ms = PS_Expr -> blanks w -> closes x -> 10 * List.length t + 20 <= m -> j <= 1 ->
    reads m QExpr ms sy ds (w ++ t ++ x) j (fun n => denotes n v) x 1.
(** the first token *)
Definition First (t : bytes) : Prop := forall w x, blanks w -> stops x -> exists k v r, lexes PS_Expr (w ++ t ++ x) k v r /\
  In k [tok_id; tok_int; tok_op_negate; tok_dquote; tok_l_bracket; tok_l_curly].

Lemma op_simple v t k w x m ms sy ds j u r : mode_of ms = PS_Expr -> blanks w -> closes x -> Simple v t -> ~ negative v ->
  lexes PS_Expr (w ++ t ++ x) k u r -> k <> tok_op_not -> k <> tok_op_negate -> 10 * List.length t + 16 <= m ->
  Nat.max j 1 <= maxj v ->
  reads m (QOp 0) ms sy ds (w ++ t ++ x) j (fun n => denotes n v) x 1.
Proof.
  intros M W C H N L N1 N2 F J. destruct m as [|m]; [lia|]. destruct m as [|m]; [lia|]. destruct m as [|m]; [lia|].
  eapply op_reads; [exact M|exact C|exact L|exact N1|exact N2| |lia].
  apply app_reads; [exact M|exact C| |lia].
  assert (R : reads m QSimple ms sy ds (w ++ t ++ x) (Nat.max j 1) (fun n => denotes n v) x 1).
  { apply H; auto; [apply C|lia]. }
  change 1 with (Nat.max 1 1) at 2. apply select_reads; [exact M|now apply closes_undotted|exact R].
Qed.

Lemma word_value (u : bytes) a u0 v : u = a :: u0 -> (isalpha a || Ascii.eqb a "_")%bool = true -> forallb isIdentifierChar u0 = true ->
  maybeKW u = tok_id -> maxj v = 2 -> (forall i r j q, denotes (NVar i r (NIdent j q u)) v) -> (~ negative v) -> Simple v u /\ Expr v u /\ First u.
Proof.
  intros E A U K MJ D NN.
  assert (L : forall w x, blanks w -> stops x -> lexes PS_Expr (w ++ u ++ x) tok_id u x).
  { intros w x W X. rewrite <- K, E. now apply lexes_word. }
  assert (Sm : Simple v u).
  { intros _ w x m ms sy ds j M W X F J s S. destruct m as [|m]; [lia|]. rewrite run_S. cbn [ParseModel.step]. unfold parseExprSimple.
    apply ends_bind. eapply ends_peek0; [exact S|rewrite M; apply L; assumption|]. intros t s1 K1 V1 S1 P1 _. rewrite K1.
    apply ends_bind. eapply ends_consume; [exact S1|rewrite M; apply L; assumption|]. intros s2 S2 B2.
    apply ends_bind. eapply ends_fresh; [exact S2|]. intros i s3 S3 P3.
    apply ends_bind. eapply ends_fresh; [exact S3|]. intros i2 s4 S4 P4.
    apply ends_ret. eexists. split; [reflexivity|]. split; [rewrite V1; apply D|].
    split; [eapply St_more; [exact S4|lia]|unfold begun; congruence]. }
  split; [exact Sm|]. split.
  - intros w x m ms sy ds j M W C F J s S. destruct m as [|m]; [lia|]. rewrite run_S. cbn [ParseModel.step]. unfold parseExpr.
    pose proof C as (X & k & kv & r & LX & KK).
    apply ends_bind. unfold peekk at 1. apply ends_bind.
    eapply ends_peek0; [exact S|rewrite M; apply L; assumption|]. intros t s1 K1 V1 S1 P1 _. apply ends_ret. rewrite K1.
    apply ends_bind. unfold peekk at 1. apply ends_bind.
    eapply (ends_peek 1 ms sy ds _ _ s1 [(tok_id, u); (k, kv)]); [exact S1| |reflexivity|reflexivity|].
    { rewrite M. econstructor; [apply L; assumption|]. econstructor; [exact LX|constructor]. }
    intros t2 s2 K2 V2 S2 P2 _. apply ends_ret. rewrite K2.
    assert (G : reads m (QOp 0) ms sy ds (w ++ u ++ x) 2 (fun n => denotes n v) x 1).
    { eapply (op_simple v u tok_id); try eassumption; try discriminate; [apply L; assumption|lia|rewrite MJ; lia]. }
    assert (S2' : St ms sy ds (w ++ u ++ x) 2 s2) by (eapply St_more; [exact S2|lia]).
    destruct KK as [->| ->]; apply G; exact S2'.
  - intros w x W X. exists tok_id, u, x. split; [apply L; assumption|now left].
Qed.

Lemma from_chars_small n : (n < 2 ^ 63)%N -> from_chars (decimal_of n) = Some n.
Proof.
  intros L. unfold from_chars. destruct (decimal_good n) as (_ & _ & V & _).
  change (dec_N (decimal_of n)) with (value_of (decimal_of n)). rewrite V.
  destruct (N.ltb_spec n (2 ^ 63)); [reflexivity|lia].
Qed.

Lemma digits_simple n w x m ms sy ds j : (n < 2 ^ 63)%N -> mode_of ms = PS_Expr -> blanks w -> stops x -> 1 <= m -> j <= 1 ->
  reads m QSimple ms sy ds (w ++ decimal_of n ++ x) j (fun nd => exists i r, nd = NInt i r n) x 1.
Proof.
  intros Ln M W X F J s S. destruct (decimal_good n) as (NE & DG & _ & _).
  assert (L : lexes PS_Expr (w ++ decimal_of n ++ x) tok_int (decimal_of n) x) by (now apply lexes_int).
  destruct m as [|m]; [lia|]. rewrite run_S. cbn [ParseModel.step]. unfold parseExprSimple.
  apply ends_bind. eapply ends_peek0; [exact S|rewrite M; exact L|]. intros t s1 K1 V1 S1 P1 _. rewrite K1.
  apply ends_bind. eapply ends_consume; [exact S1|rewrite M; exact L|]. intros s2 S2 B2.
  apply ends_bind. rewrite V1, from_chars_small by assumption. apply ends_ret.
  apply ends_bind. eapply ends_fresh; [exact S2|]. intros i s3 S3 P3.
  apply ends_ret. eexists. split; [reflexivity|]. split; [eauto|].
  split; [eapply St_more; [exact S3|lia]|unfold begun; congruence].
Qed.

Lemma number_value v z : number_of v z -> (- 2 ^ 63 < z < 2 ^ 63)%Z ->
  Simple v (int_text z) /\ Expr v (int_text z) /\ First (int_text z).
Proof.
  intros Nz Rz.
  assert (MJ : maxj v = 1) by (destruct Nz as [->| ->]; reflexivity).
  assert (NN : (0 <= z)%Z -> ~ negative v).
  { intros P (z' & [E|E] & L'); destruct Nz as [E'|E']; rewrite E' in E; try discriminate; injection E as <-; lia. }
  destruct (Z.leb_spec 0 z) as [P|P].
  - assert (T : int_text z = decimal_of (Z.to_N z)) by (destruct z; [reflexivity|reflexivity|lia]).
    rewrite T. assert (Ln : (Z.to_N z < 2 ^ 63)%N) by lia.
    destruct (decimal_good (Z.to_N z)) as (NE & DG & _ & _).
    assert (L : forall w x, blanks w -> stops x -> lexes PS_Expr (w ++ decimal_of (Z.to_N z) ++ x) tok_int (decimal_of (Z.to_N z)) x).
    { intros w x W X. now apply lexes_int. }
    assert (Sm : Simple v (decimal_of (Z.to_N z))).
    { intros _ w x m ms sy ds j M W X F J s S. rewrite MJ in J.
      eapply ends_mono; [eapply digits_simple; [exact Ln|exact M|exact W|exact X|lia|exact J|exact S]|].
      intros a s' (n & -> & (i & r & ->) & S' & B'). eexists. split; [reflexivity|]. split; [|auto].
      constructor. rewrite Z2N.id by assumption. exact Nz. }
    split; [exact Sm|]. split.
    + intros w x m ms sy ds j M W C F J s S. destruct m as [|m]; [lia|]. rewrite run_S. cbn [ParseModel.step]. unfold parseExpr.
      pose proof C as (X & _).
      apply ends_bind. unfold peekk at 1. apply ends_bind.
      eapply ends_peek0; [exact S|rewrite M; apply L; assumption|]. intros t s1 K1 V1 S1 P1 _. apply ends_ret. rewrite K1.
      eapply (op_simple v (decimal_of (Z.to_N z)) tok_int w x m ms sy ds (Nat.max j 1)); try eassumption; try discriminate;
        [now apply NN|apply L; assumption|lia|rewrite MJ; lia].
    + intros w x W X. eexists _, _, _. split; [apply L; assumption|cbn; tauto].
  - assert (T : exists n, int_text z = "-"%char :: decimal_of n /\ z = (- Z.of_N n)%Z /\ (n < 2 ^ 63)%N).
    { destruct z as [|p|p]; try lia. exists (Npos p). repeat split; lia. }
    destruct T as (n & -> & -> & Ln). destruct (decimal_good n) as (NE & DG & _ & _).
    assert (L : forall w x, blanks w -> stops x -> lexes PS_Expr (w ++ ("-"%char :: decimal_of n) ++ x) tok_op_negate ["-"%char] (decimal_of n ++ x)).
    { intros w x W X. now apply lexes_minus. }
    split; [|split].
    + intros Ng. exfalso. apply Ng. exists (- Z.of_N n)%Z. auto.
    + intros w x m ms sy ds j M W C F J s S. destruct m as [|m]; [lia|]. rewrite run_S. cbn [ParseModel.step]. unfold parseExpr.
      pose proof C as (X & _).
      apply ends_bind. unfold peekk at 1. apply ends_bind.
      eapply ends_peek0; [exact S|rewrite M; apply L; assumption|]. intros t s1 K1 V1 S1 P1 _. apply ends_ret. rewrite K1.
      destruct m as [|m]; [lia|]. rewrite run_S. cbn [ParseModel.step]. unfold parseExprOpBP.
      apply ends_bind. unfold lCur. apply ends_bind. eapply ends_peek0; [exact S1|rewrite M; apply L; assumption|]. intros t2 s2 K2 V2 S2 P2 _. apply ends_ret.
      apply ends_bind. eapply ends_peek0; [exact S2|rewrite M; apply L; assumption|]. intros t3 s3 K3 V3 S3 P3 _. rewrite K3.
      apply ends_bind. apply ends_bind. eapply ends_consume; [exact S3|rewrite M; apply L; assumption|]. intros s4 S4 B4.
      apply ends_bind. apply ends_assertLast; [exact B4|].
      apply ends_bind. eapply ends_fresh; [exact S4|]. intros io s5 S5 P5.
      assert (S5' : St ms sy ds ([] ++ decimal_of n ++ x) 0 s5) by (eapply St_more; [exact S5|lia]).
      assert (R : reads m (QOp (getUnaryBP tok_op_negate)) ms sy ds ([] ++ decimal_of n ++ x) 0 (fun nd => exists i r, nd = NInt i r n) x 1).
      { destruct m as [|m]; [lia|]. destruct m as [|m]; [lia|]. destruct m as [|m]; [lia|].
        eapply op_reads; [exact M|exact C|apply lexes_int; [reflexivity|exact DG|exact NE|exact X]|discriminate|discriminate| |lia].
        apply app_reads; [exact M|exact C| |cbn [List.length] in F; lia].
        change 1 with (Nat.max 1 1) at 2. apply select_reads; [exact M|now apply closes_undotted|].
        apply digits_simple; auto; cbn [List.length] in F; lia. }
      apply ends_bind. eapply ends_mono; [apply R; exact S5'|].
      intros a s6 (nd & -> & (i6 & r6 & ->) & S6 & B6).
      apply ends_bind. apply ends_ret. apply ends_bind. apply ends_toLast; [exact B6|]. intros rr.
      apply ends_bind. eapply ends_fresh; [exact S6|]. intros i7 s7 S7 P7. apply ends_ret.
      destruct m as [|m]; [cbn [List.length] in F; lia|].
      eapply ends_mono; [eapply oploop_ends; [exact M|exact C|exact S7]|]. intros a s8 (-> & S8 & P8).
      eexists. split; [reflexivity|]. split; [constructor; exact Nz|]. split; [exact S8|unfold begun; congruence].
    + intros w x W X. eexists _, _, _. split; [apply L; assumption|cbn; tauto].
Qed.

(** expressions that start with a token deciding for an operand *)
Lemma expr_simple v t k u : (forall w x, blanks w -> stops x -> exists r, lexes PS_Expr (w ++ t ++ x) k u r) ->
  In k [tok_dquote; tok_l_bracket; tok_quote2] -> maxj v = 1 -> ~ negative v -> Simple v t -> Expr v t.
Proof.
  intros L K MJ NN Sm w x m ms sy ds j M W C F J s S. destruct m as [|m]; [lia|]. rewrite run_S. cbn [ParseModel.step]. unfold parseExpr.
  pose proof C as (X & _). destruct (L w x W X) as [r L'].
  apply ends_bind. unfold peekk at 1. apply ends_bind.
  eapply ends_peek0; [exact S|rewrite M; exact L'|]. intros t1 s1 K1 V1 S1 P1 _. apply ends_ret. rewrite K1.
  assert (G : reads m (QOp 0) ms sy ds (w ++ t ++ x) (Nat.max j 1) (fun n => denotes n v) x 1).
  { eapply op_simple; try eassumption; [| |lia|rewrite MJ; lia]; intros ->; cbn in K; intuition discriminate. }
  cbn in K. destruct K as [<-|[<-|[<-|[]]]]; apply G; exact S1.
Qed.

Lemma escape_length s : List.length s <= List.length (escapeNixString s).
Proof.
  assert (G : forall n s, List.length s <= n -> List.length s <= List.length (escapeNixString s)).
  { clear s. induction n as [|n IH]; intros s L; [destruct s; [cbn; lia|cbn in L; lia]|].
    destruct s as [|c s]; [cbn; lia|]. cbn [List.length] in L. cbn [escapeNixString].
    pose proof (IH s ltac:(lia)) as H.
    repeat match goal with |- context [if Ascii.eqb c ?d then _ else _] =>
      destruct (Ascii.eqb c d); [try (rewrite app_length; change (List.length (c :: s)) with (S (List.length s)); cbn [b List.length list_ascii_of_string]; lia)|] end.
    - destruct s as [|c2 s2]; [cbn; lia|]. destruct (Ascii.eqb c2 "{").
      + rewrite app_length. cbn [List.length] in *. pose proof (IH s2 ltac:(lia)). cbn [b List.length list_ascii_of_string]. lia.
      + cbn [List.length] in *. lia.
    - cbn [List.length]. lia. }
  eapply G. reflexivity.
Qed.
Lemma key_length k : List.length k <= List.length (keyText bare k).
Proof.
  unfold keyText. destruct (bare k); [lia|]. rewrite !app_length. pose proof (escape_length k). lia.
Qed.

Lemma string_value_reads x0 : let t := b """" ++ escapeNixString x0 ++ b """" in
  Simple (JString x0) t /\ Expr (JString x0) t /\ First t.
Proof.
  intros t.
  assert (L : forall w x, blanks w -> stops x -> lexes PS_Expr (w ++ t ++ x) tok_dquote [Q] (escapeNixString x0 ++ Q :: x)).
  { intros w x W X. unfold t. rewrite <- !app_assoc. apply lexes_punct; [exact W|inp]. }
  assert (NN : ~ negative (JString x0)) by (intros (z & [E|E] & _); discriminate).
  assert (Sm : Simple (JString x0) t).
  { intros _ w x m ms sy ds j M W X F J s S. destruct m as [|m]; [lia|]. rewrite run_S. cbn [ParseModel.step]. unfold parseExprSimple.
    cbn [maxj] in J. unfold t in F. rewrite !app_length in F. pose proof (escape_length x0). cbn [b List.length list_ascii_of_string] in F.
    apply ends_bind. eapply ends_peek0; [exact S|rewrite M; apply L; assumption|]. intros t1 s1 K1 V1 S1 P1 _. rewrite K1.
    eapply ends_mono; [eapply (string_reads src x0 x m ms sy ds M); [lia|exact (L w x W X)| |exact S1]; lia|].
    intros a s2 (n & -> & (i & r & ip & rp & ->) & S2 & B2). eexists. split; [reflexivity|]. split.
    - constructor. eexists _, _, _, _, _. split; [reflexivity|]. destruct x0; auto.
    - split; [eapply St_more; [exact S2|lia]|exact B2]. }
  split; [exact Sm|]. split.
  - apply (expr_simple _ _ tok_dquote [Q]); [|cbn; auto|reflexivity|exact NN|exact Sm]. intros w x W X. eexists. apply L; assumption.
  - intros w x W X. eexists _, _, _. split; [apply L; assumption|cbn; tauto].
Qed.
End Src.
