(** Reading back the text of jsonToNix. *)
From Verif Require Import Base Diag LexModel AstModel PSupModel SemaModel ParseModel LexProofs SemaProofs ConnModel ConnProofs ActModel ActSpec ReadTools ReadString.

Lemma stops_sp x : stops (" "%char :: x).
Proof. now left. Qed.
Lemma stops_lf x : stops (LF ++ x).
Proof. right. now left. Qed.
Lemma stops_semi x : stops (";"%char :: x).
Proof. right. right. now left. Qed.
#[export] Hint Resolve stops_sp stops_lf stops_semi : core.

Lemma blanks_spaces n : blanks (spaces n).
Proof. unfold blanks, spaces. induction (n * 2); cbn; auto. Qed.
Lemma blanks_lf w : blanks w -> blanks (LF ++ w).
Proof. unfold blanks. cbn. auto. Qed.
Lemma blanks_app w w' : blanks w -> blanks w' -> blanks (w ++ w').
Proof. unfold blanks. intros A B. rewrite forallb_app, A, B. reflexivity. Qed.
Lemma blanks_nil : blanks [].
Proof. reflexivity. Qed.
Lemma blanks_sp : blanks [" "%char].
Proof. reflexivity. Qed.
#[export] Hint Resolve blanks_spaces blanks_lf blanks_nil blanks_sp : core.

Lemma lexes_punct w a k x : blanks w -> In (a, k) punct -> lexes PS_Expr (w ++ a :: x) k [a] x.
Proof.
  intros W I. apply lexes_blanks; [exact W| |now apply token_punct].
  unfold punct in I. cbn in I. unfold solid.
  repeat (destruct I as [E|I]; [injection E as <- <-; repeat split; discriminate|]). contradiction.
Qed.
Ltac inp := unfold punct; cbn; tauto.

Lemma isalpha_facts a : isalpha a = true -> isdigit a = false /\ isspace a = false /\ a <> "#"%char /\ a <> "/"%char.
Proof. destruct a as [[|] [|] [|] [|] [|] [|] [|] [|]]; vm_compute; intuition congruence. Qed.
Lemma isdigit_facts a : isdigit a = true -> isspace a = false /\ a <> "#"%char /\ a <> "/"%char.
Proof. destruct a as [[|] [|] [|] [|] [|] [|] [|] [|]]; vm_compute; intuition congruence. Qed.

Lemma lexes_word w a u x : blanks w -> (isalpha a || Ascii.eqb a "_")%bool = true -> forallb isIdentifierChar u = true -> stops x ->
  lexes PS_Expr (w ++ (a :: u) ++ x) (maybeKW (a :: u)) (a :: u) x.
Proof.
  intros W A U X.
  assert (F : isdigit a = false /\ isspace a = false /\ a <> "#"%char /\ a <> "/"%char).
  { apply orb_prop in A as [A|A]; [now apply isalpha_facts|]. apply Ascii.eqb_eq in A as ->. repeat split; discriminate. }
  destruct F as (F1 & F2 & F3 & F4). apply lexes_blanks; [exact W|repeat split; assumption|].
  now apply token_word.
Qed.
Lemma lexes_int w u x : blanks w -> forallb isdigit u = true -> u <> [] -> stops x ->
  lexes PS_Expr (w ++ u ++ x) tok_int u x.
Proof.
  intros W U N X. apply lexes_blanks; [exact W| |now apply token_int].
  destruct u as [|a u]; [congruence|]. cbn in U. apply andb_prop in U as [U _]. now apply isdigit_facts in U.
Qed.
Lemma lexes_minus w u x : blanks w -> forallb isdigit u = true -> u <> [] -> stops x ->
  lexes PS_Expr (w ++ "-"%char :: u ++ x) tok_op_negate ["-"%char] (u ++ x).
Proof.
  intros W U N X. apply lexes_blanks; [exact W| |now apply token_minus]. repeat split; discriminate.
Qed.
Lemma lexes_eq w x : blanks w -> lexes PS_Expr (w ++ "="%char :: " "%char :: x) tok_eq ["="%char] (" "%char :: x).
Proof.
  intros W. apply lexes_blanks; [exact W|repeat split; discriminate|]. apply token_eq. discriminate.
Qed.
Lemma lexes_eof w : blanks w -> lexes PS_Expr w tok_eof [] [].
Proof.
  intros W. rewrite <- (app_nil_r w). apply lexes_blanks; [exact W|exact I|apply token_eof].
Qed.

(** ** keys *)

Lemma valid_shape k : isValidNixIdentifier k = true -> exists a u, k = a :: u /\ (isalpha a || Ascii.eqb a "_")%bool = true /\
  forallb isIdentifierChar u = true /\ maybeKW k = tok_id.
Proof.
  unfold isValidNixIdentifier. destruct k as [|a u]; [discriminate|]. intros H.
  apply andb_prop in H as [H R]. apply andb_prop in H as [H1 H2]. exists a, u. repeat split; auto.
  - apply forallb_forall. intros c C. rewrite forallb_forall in H2. specialize (H2 c C).
    revert H2. clear. destruct c as [[|] [|] [|] [|] [|] [|] [|] [|]]; vm_compute; congruence.
  - unfold maybeKW. destruct (find (fun k => bytes_eqb (a :: u) (spelling k)) keywords) as [k|] eqn:E; [|reflexivity].
    apply find_some in E as [I E]. apply bytes_eqb_spec in E. exfalso.
    apply negb_true_iff in R. assert (X : existsb (bytes_eqb (a :: u)) reserved = true).
    { apply existsb_exists. exists (a :: u). split; [|now apply bytes_eqb_spec]. rewrite E.
      unfold keywords in I. cbn in I. repeat (destruct I as [<-|I]; [unfold reserved; cbn; tauto|]). contradiction. }
    congruence.
Qed.

(** the first token of a key *)
(** how keys are written: bare, if so chosen and valid, or quoted *)
Section Bare.
Variable bare : bytes -> bool.
Hypothesis Hb : forall k, bare k = true -> isValidNixIdentifier k = true.
Definition keyText (k : bytes) : bytes := if bare k then k else b """" ++ escapeNixString k ++ b """".

Lemma key_first k w x : blanks w -> stops x -> exists kk v r, lexes PS_Expr (w ++ keyText k ++ x) kk v r /\
  ((bare k = true /\ kk = tok_id /\ v = k /\ r = x) \/
   (bare k = false /\ kk = tok_dquote /\ v = [Q] /\ r = escapeNixString k ++ Q :: x)).
Proof.
  intros W X. unfold keyText. destruct (bare k) eqn:E.
  - destruct (valid_shape k (Hb k E)) as (a & u & -> & A & U & K). exists tok_id, (a :: u), x. split; [|left; auto].
    rewrite <- K. now apply lexes_word.
  - exists tok_dquote, [Q], (escapeNixString k ++ Q :: x). split; [|right; auto].
    rewrite <- !app_assoc. apply lexes_punct; [exact W|inp].
Qed.

Definition names_key (k : bytes) (n : node) : Prop := exists i r x, n = NAttrName i r x /\ staticName n = Some k.

Section Src.
Variable src : bytes.
Notation reads := (reads src).
Notation run := (run src).

Lemma name_reads k w x m ms sy ds j : mode_of ms = PS_Expr -> blanks w -> stops x -> k <> [] -> List.length k + 3 <= m ->
  (if bare k then True else j <= 1) ->
  reads m QAttrName ms sy ds (w ++ keyText k ++ x) j (names_key k) x (pred (Nat.max j 1)).
Proof.
  intros M W X NE F J s S. destruct m as [|m]; [lia|]. rewrite run_S. cbn [ParseModel.step]. unfold parseAttrName.
  destruct (key_first k w x W X) as (kk & v & r & LX & D).
  apply ends_bind. eapply ends_peek0; [exact S|rewrite M; exact LX|]. intros t s1 K1 V1 S1 P1 _. rewrite K1.
  destruct D as [(E & -> & -> & ->)|(E & -> & -> & ->)].
  - apply ends_bind. eapply ends_consume; [exact S1|rewrite M; exact LX|]. intros s2 S2 B2.
    apply ends_bind. eapply ends_fresh; [exact S2|]. intros i s3 S3 P3.
    apply ends_bind. eapply ends_fresh; [exact S3|]. intros i2 s4 S4 P4.
    apply ends_ret. eexists. split; [reflexivity|]. split.
    + eexists _, _, _. split; [reflexivity|]. cbn. now rewrite V1.
    + split; [exact S4|]. unfold begun. congruence.
  - rewrite E in J. apply ends_bind.
    eapply ends_mono; [eapply (string_reads src k x m ms sy ds M); [lia|exact LX| |exact S1]; lia|].
    intros a s2 (n & -> & (i & r & ip & rp & ->) & S2 & B2).
    apply ends_bind. eapply ends_fresh; [exact S2|]. intros i2 s4 S4 P4.
    apply ends_ret. eexists. split; [reflexivity|]. split; [|split; [eapply St_more; [exact S4|lia]|unfold begun; congruence]].
    eexists _, _, _. split; [reflexivity|]. cbn. destruct k; [congruence|reflexivity].
Qed.

Definition names_path (k : bytes) (n : node) : Prop := exists i r nm ds, n = NAttrPath i r [nm] ds /\ staticName nm = Some k.

Lemma path_reads k w x m ms sy ds j : mode_of ms = PS_Expr -> blanks w -> k <> [] -> List.length k + 4 <= m ->
  (if bare k then True else j <= 1) -> j <= 2 ->
  reads m QAttrPath ms sy ds (w ++ keyText k ++ b " = " ++ x) j (names_path k) (b " = " ++ x) 1.
Proof.
  intros M W NE F J J2 s S. destruct m as [|m]; [lia|]. rewrite run_S. cbn [ParseModel.step]. unfold parseAttrPath.
  apply ends_bind. eapply ends_mono; [eapply (name_reads k w (b " = " ++ x) m ms sy ds j M W); [apply stops_sp|exact NE|lia|exact J|exact S]|].
  intros a s1 (n & -> & (i & r & y & En & SN) & S1 & B1).
  apply ends_bind. apply ends_assertLast; [exact B1|].
  eapply ends_withSync; [exact S1|]. intros s2 S2 P2.
  assert (LX : lexes (mode_of ms) (b " = " ++ x) tok_eq ["="%char] (" "%char :: x)).
  { rewrite M. apply (lexes_eq [" "%char] x). reflexivity. }
  destruct m as [|m]; [lia|]. rewrite run_S. cbn [ParseModel.step]. unfold parseAttrPathLoop.
  apply ends_bind. eapply ends_peek0; [exact S2|exact LX|]. intros t s3 K3 V3 S3 P3 _. rewrite K3. cbn [tkind_beq].
  assert (B3 : begun s3) by (unfold begun; congruence).
  apply ends_bind. apply ends_toLast; [exact B3|]. intros rr.
  apply ends_bind. eapply ends_fresh; [exact S3|]. intros i4 s4 S4 P4.
  apply ends_ret. eexists _, _. split; [exact S4|]. intros s5 S5 P5.
  eexists. split; [reflexivity|]. split; [|split; [eapply St_more; [exact S5|lia]|unfold begun; congruence]].
  eexists _, _, _, _. split; [reflexivity|exact SN].
Qed.

(** ** the lowering of bindings with distinct names *)

Definition field_binding (P : node -> Prop) (k : bytes) (bd : node) : Prop :=
  exists i r p v eq nm, bd = NBinding i r p (Some v) eq /\ path_names p = [nm] /\ staticName nm = Some k /\ P v.

Lemma lower_fields (bs : list node) : forall (ks : list bytes) st s,
  Forall2 (fun k bd => field_binding (fun _ => True) k bd) ks bs -> NoDup ks -> (forall k, In k ks -> sfind k st = None) -> sorted st ->
  exists st', lowerBinds (SA st []) bs s = Ok (SA st' [], s) /\ sorted st' /\
    exists new, Permutation st' (st ++ new) /\
      Forall2 (fun (f : bytes * attribute) bd => exists i r p eq, bd = NBinding i r p (Some (a_value (snd f))) eq /\ a_kind (snd f) = AK_Plain) new bs /\
      map fst new = ks.
Proof.
  induction bs as [|bd bs IH]; intros ks st s F N Fr So.
  - inversion F; subst. exists st. split; [reflexivity|]. split; [exact So|]. exists []. rewrite app_nil_r. repeat split; auto.
  - destruct ks as [|k ks]; [inversion F|]. assert (F1 : field_binding (fun _ => True) k bd) by (inversion F; assumption).
    assert (F2 : Forall2 (fun k bd => field_binding (fun _ => True) k bd) ks bs) by (inversion F; assumption). clear F.
    destruct F1 as (i & r & p & v & eq & nm & -> & PN & SN & _).
    inversion N as [|? ? N1 N2]; subst.
    assert (E : insertAttr (SA st []) nm (Some v) AK_Plain s = Ok (SA (sinsert k (AK_Plain, nm, v) st) [], s)).
    { unfold insertAttr. rewrite SN. cbn [sa_static]. rewrite (Fr k) by now left. reflexivity. }
    assert (Pm : forall st0, sfind k st0 = None -> Permutation (sinsert k (AK_Plain, nm, v) st0) ((k, (AK_Plain, nm, v)) :: st0)).
    { induction st0 as [|[k0 v0] st0 IHs]; intros H; cbn [sinsert]; [reflexivity|]. cbn [sfind] in H.
      destruct (bytes_eqb k k0); [discriminate|]. destruct (bytes_ltb k k0); [reflexivity|].
      rewrite (IHs H). apply perm_swap. }
    assert (Pk := Pm st (Fr k (or_introl eq_refl))).
    destruct (IH ks (sinsert k (AK_Plain, nm, v) st) s F2 N2) as (st' & E' & So' & new & P' & F' & K').
    + intros k' K. destruct (sfind k' (sinsert k (AK_Plain, nm, v) st)) as [a|] eqn:G; [|reflexivity]. exfalso.
      apply sfind_in in G. apply (Permutation_in _ Pk) in G. destruct G as [G|G].
      * injection G as -> _. contradiction.
      * apply (sfind_none _ _ (Fr k' (or_intror K)) a G).
    + now apply sorted_sinsert.
    + exists st'. split; [cbn [lowerBinds]; rewrite PN; cbn [addAttr]; unfold pbind; rewrite E; exact E'|].
      split; [exact So'|]. exists ((k, (AK_Plain, nm, v)) :: new). split; [|split].
      * rewrite P', Pk. cbn. apply Permutation_middle.
      * constructor; [|exact F']. eexists _, _, _, _. split; reflexivity.
      * cbn. now rewrite K'.
Qed.
End Src.
End Bare.
