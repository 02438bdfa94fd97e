(** Reading back the text of jsonToNix: arrays and objects. *)
From Verif Require Import Base Diag LexModel AstModel PSupModel SemaModel ParseModel LexProofs SemaProofs ConnModel ConnProofs ActModel ActSpec ReadTools ReadString ReadJson ReadJson2.

(** each element after a separator *)
Definition body (sep : bytes) (xs : list bytes) : bytes := flat_map (fun x => sep ++ x) xs.

Lemma lines_body pad xs : forall t, lines pad xs = Some t -> xs <> [] -> LF ++ t = body (LF ++ pad) xs /\ ~ In [] xs.
Proof.
  induction xs as [|x xs IH]; intros t H NE; [congruence|]. cbn [lines] in H.
  destruct (lines pad xs) as [t'|] eqn:E; [|discriminate]. destruct x as [|c x]; [discriminate|].
  injection H as <-. destruct xs as [|x2 xs].
  - split; [cbn; now rewrite !app_nil_r|]. intros [X|[]]; discriminate.
  - destruct (IH t' eq_refl) as [B N]; [discriminate|]. split.
    + change (body (LF ++ pad) ((c :: x) :: x2 :: xs)) with (((LF ++ pad) ++ c :: x) ++ body (LF ++ pad) (x2 :: xs)). rewrite <- B.
      rewrite <- !app_assoc. reflexivity.
    + intros [X|X]; [discriminate|contradiction].
Qed.

Section Src.
Variable src : bytes.
Variable bare : bytes -> bool.
Hypothesis Hb : forall k, bare k = true -> isValidNixIdentifier k = true.
Notation reads := (reads src).
Notation run := (run src).
Notation Simple := (Simple src bare).
Notation Expr := (Expr src).

(** ** arrays *)

Lemma list_loop pad ind x tok : blanks pad -> blanks ind -> forall l ts acc m ms sy ds j s,
  mode_of ms = PS_Expr -> Forall2 (fun v t => Simple v t /\ First t /\ ~ negative v) l ts ->
  10 * List.length (body (LF ++ pad) ts) + 10 <= m -> j <= 1 -> begun s ->
  St ms sy ds (body (LF ++ pad) ts ++ LF ++ ind ++ "]"%char :: x) j s ->
  ends (run m (QListLoop tok acc)) s (fun a s' => exists i r es, a = Some (NList i r (acc ++ es)) /\ Forall2 denotes es l /\
    St ms sy ds x 1 s' /\ begun s').
Proof.
  intros Wp Wi. induction l as [|v l IH]; intros ts acc m ms sy ds j s M F2 Fu J B S.
  - inversion F2; subst. cbn [body flat_map app] in S.
    assert (L : lexes (mode_of ms) (LF ++ ind ++ "]"%char :: x) tok_r_bracket ["]"%char] x).
    { rewrite M, app_assoc. apply lexes_punct; [now apply blanks_lf|inp]. }
    destruct m as [|m]; [lia|]. rewrite run_S. cbn [ParseModel.step]. unfold parseExprListLoop.
    apply ends_bind. unfold peekk. apply ends_bind. eapply ends_peek0; [exact S|exact L|]. intros t s1 K1 V1 S1 P1 _. apply ends_ret.
    rewrite K1. cbn [tkind_beq].
    apply ends_bind. eapply ends_expect; [exact S1|exact L|]. intros t2 s2 K2 V2 S2 P2.
    apply ends_bind. eapply ends_consume; [exact S2|exact L|]. intros s3 S3 B3.
    apply ends_bind. apply ends_toLast; [exact B3|]. intros r.
    apply ends_bind. eapply ends_fresh; [exact S3|]. intros i s4 S4 P4.
    apply ends_ret. exists i, r, []. rewrite app_nil_r. split; [reflexivity|]. split; [constructor|].
    split; [eapply St_more; [exact S4|lia]|unfold begun; congruence].
  - destruct ts as [|t ts]; [inversion F2|].
    assert (H1 : Simple v t /\ First t /\ ~ negative v) by (inversion F2; assumption).
    assert (H2 : Forall2 (fun v t => Simple v t /\ First t /\ ~ negative v) l ts) by (inversion F2; assumption). clear F2.
    destruct H1 as (Sm & Fi & NN).
    set (rst := body (LF ++ pad) ts ++ LF ++ ind ++ "]"%char :: x) in *.
    assert (E : body (LF ++ pad) (t :: ts) ++ LF ++ ind ++ "]"%char :: x = (LF ++ pad) ++ t ++ rst).
    { unfold rst. cbn [body flat_map]. rewrite <- !app_assoc. reflexivity. }
    rewrite E in S.
    assert (LB : List.length (body (LF ++ pad) (t :: ts)) = 1 + List.length pad + List.length t + List.length (body (LF ++ pad) ts)).
    { unfold body. cbn [flat_map]. rewrite !app_length. cbn [List.length LF]. change (List.length LF) with 1. lia. }
    assert (St_ : stops rst).
    { unfold rst. destruct ts; cbn [body flat_map app]; [apply stops_lf|]. rewrite <- !app_assoc. apply stops_lf. }
    assert (Un : undotted rst).
    { unfold rst. destruct ts as [|t2 ts].
      - eexists _, _, _. split; [cbn [body flat_map app]; rewrite app_assoc; apply lexes_punct; [now apply blanks_lf|inp]|discriminate].
      - destruct l as [|v2 l]; [inversion H2|].
        assert (F2 : First t2) by (inversion H2; tauto).
        cbn [body flat_map]. rewrite <- !app_assoc, app_assoc.
        edestruct (F2 (LF ++ pad)) as (k & u & r & L & K); [now apply blanks_lf| |exists k, u, r; split; [exact L|]].
        + destruct ts; cbn [flat_map app]; [apply stops_lf|]. rewrite <- !app_assoc. apply stops_lf.
        + intros ->. cbn in K. intuition discriminate. }
    destruct m as [|m]; [lia|]. rewrite run_S. cbn [ParseModel.step]. unfold parseExprListLoop.
    destruct (Fi (LF ++ pad) rst) as (k & u & r & L & K); [now apply blanks_lf|exact St_|].
    apply ends_bind. unfold peekk. apply ends_bind. eapply ends_peek0; [exact S|rewrite M; exact L|]. intros t1 s1 K1 V1 S1 P1 _. apply ends_ret.
    replace (tkind_beq (tk t1) tok_r_bracket) with false
      by (rewrite K1; clear - K; cbn in K; repeat (destruct K as [<-|K]; [reflexivity|]); contradiction).
    assert (R : reads m QSelect ms sy ds ((LF ++ pad) ++ t ++ rst) 1 (fun n => denotes n v) rst 1).
    { destruct m as [|m]; [lia|]. change 1 with (Nat.max 1 1) at 2. apply select_reads; [exact M|exact Un|].
      apply Sm; auto; [lia|]. unfold maxj. destruct v as [| | | | | |[|[k0 ?] ?]]; try lia. destruct (bare k0); lia. }
    apply ends_bind. eapply ends_mono; [apply R; eapply St_more; [exact S1|lia]|].
    intros a s2 (n & -> & Dn & S2 & B2).
    eapply ends_mono; [eapply (IH ts (acc ++ [n]) m ms sy ds 1 s2 M H2); [lia|lia|exact B2|exact S2]|].
    intros a s3 (i & r3 & es & -> & F3 & S3 & B3). exists i, r3, (n :: es). rewrite <- app_assoc. split; [reflexivity|].
    split; [now constructor|]. auto.
Qed.

Lemma array_value pad ind l ts t : blanks pad -> blanks ind ->
  Forall2 (fun v t => Simple v t /\ First t /\ ~ negative v) l ts ->
  t = b "[" ++ body (LF ++ pad) ts ++ LF ++ ind ++ b "]" \/ (l = [] /\ ts = [] /\ t = b "[ ]") ->
  Simple (JArray l) t /\ Expr (JArray l) t /\ First t.
Proof.
  intros Wp Wi F2 T.
  assert (L : forall w x, blanks w -> stops x -> exists r, lexes PS_Expr (w ++ t ++ x) tok_l_bracket ["["%char] r).
  { intros w x W X. destruct T as [->|(_ & _ & ->)].
    - eexists. rewrite <- !app_assoc. apply lexes_punct; [exact W|inp].
    - eexists. apply lexes_punct; [exact W|inp]. }
  assert (NN : ~ negative (JArray l)) by (intros (z & [E|E] & _); discriminate).
  assert (TT : exists ind', blanks ind' /\ forall w x, blanks w -> lexes PS_Expr (w ++ t ++ x) tok_l_bracket ["["%char] (body (LF ++ pad) ts ++ ind' ++ "]"%char :: x)
      /\ exists ind'', (ind' = LF ++ ind'' /\ blanks ind'' \/ ind' = [" "%char] /\ ts = []) /\ List.length t >= 2 + List.length (body (LF ++ pad) ts)).
  { destruct T as [->|(_ & -> & ->)].
    - exists (LF ++ ind). split; [now apply blanks_lf|]. intros w x W. split.
      + rewrite <- !app_assoc. apply lexes_punct; [exact W|inp].
      + exists ind. split; [left; auto|]. rewrite !app_length. cbn [b list_ascii_of_string List.length]. lia.
    - exists [" "%char]. split; [reflexivity|]. intros w x W. split; [apply lexes_punct; [exact W|inp]|].
      exists []. split; [right; auto|]. cbn. lia. }
  destruct TT as (ind' & Wi' & TT).
  assert (Sm : Simple (JArray l) t).
  { intros _ w x m ms sy ds j M W X F J s S. destruct (TT w x W) as (LX & ind'' & KI & LT).
    destruct m as [|m]; [lia|]. rewrite run_S. cbn [ParseModel.step]. unfold parseExprSimple. cbn [maxj] in J.
    apply ends_bind. eapply ends_peek0; [exact S|rewrite M; exact LX|]. intros t1 s1 K1 V1 S1 P1 _. rewrite K1.
    destruct m as [|m]; [lia|]. rewrite run_S. cbn [ParseModel.step]. unfold parseExprList.
    apply ends_bind. eapply ends_peek0; [exact S1|rewrite M; exact LX|]. intros t2 s2 K2 V2 S2 P2 _. rewrite K2. cbn [tkind_beq negb].
    apply ends_bind. eapply ends_consume; [exact S2|rewrite M; exact LX|]. intros s3 S3 B3.
    eapply ends_withSync; [exact S3|]. intros s4 S4 P4. assert (B4 : begun s4) by (unfold begun; congruence).
    apply ends_bind. apply ends_assertLast; [exact B4|].
    assert (G : ends (run m (QListLoop t2 [])) s4 (fun a s' => exists i r es, a = Some (NList i r ([] ++ es)) /\ Forall2 denotes es l /\
      St ms (tok_r_bracket :: sy) ds x 1 s' /\ begun s')).
    { destruct KI as [[-> Wi2]|[-> ->]].
      - rewrite <- !app_assoc in S4. eapply (list_loop pad ind'' x t2 Wp Wi2 l ts); [exact M|exact F2|lia|  |exact B4|exact S4]. lia.
      - inversion F2; subst. cbn [body flat_map app] in S4.
        (* the empty array *)
        assert (L2 : lexes (mode_of ms) ([" "%char] ++ "]"%char :: x) tok_r_bracket ["]"%char] x).
        { rewrite M. apply lexes_punct; [reflexivity|inp]. }
        destruct m as [|m]; [lia|]. rewrite run_S. cbn [ParseModel.step]. unfold parseExprListLoop.
        apply ends_bind. unfold peekk. apply ends_bind. eapply ends_peek0; [exact S4|exact L2|]. intros t5 s5 K5 V5 S5 P5 _. apply ends_ret.
        rewrite K5. cbn [tkind_beq].
        apply ends_bind. eapply ends_expect; [exact S5|exact L2|]. intros t6 s6 K6 V6 S6 P6.
        apply ends_bind. eapply ends_consume; [exact S6|exact L2|]. intros s7 S7 B7.
        apply ends_bind. apply ends_toLast; [exact B7|]. intros r.
        apply ends_bind. eapply ends_fresh; [exact S7|]. intros i s8 S8 P8.
        apply ends_ret. exists i, r, []. split; [reflexivity|]. split; [constructor|].
        split; [eapply St_more; [exact S8|lia]|unfold begun; congruence]. }
    eapply ends_mono; [exact G|]. intros a s5 (i & r & es & -> & F5 & S5 & B5).
    eexists _, _. split; [exact S5|]. intros s6 S6 P6. eexists. split; [reflexivity|]. split; [cbn; now constructor|].
    split; [exact S6|unfold begun; congruence]. }
  split; [exact Sm|]. split.
  - apply (expr_simple src bare _ _ tok_l_bracket ["["%char]); [exact L|cbn; auto|reflexivity|exact NN|exact Sm].
  - intros w x W X. destruct (L w x W X) as [r Lr]. eexists _, _, _. split; [exact Lr|cbn; tauto].
Qed.

(** ** objects *)

Definition field_text (k t : bytes) : bytes := keyText bare k ++ b " = " ++ t ++ b ";".
Definition ofields (o : list (bytes * json)) (ts : list bytes) : list bytes := map (fun p => field_text (fst (fst p)) (snd p)) (combine o ts).

Lemma binding_reads k v t w x m ms sy ds j : mode_of ms = PS_Expr -> blanks w -> k <> [] -> Expr v t ->
  10 * List.length t + 22 <= m -> List.length k + 6 <= m -> (if bare k then j <= 2 else j <= 1) ->
  reads m QBinding ms sy ds (w ++ field_text k t ++ x) j (field_binding (fun n => denotes n v) k) x 0.
Proof.
  intros M W NE Ex F1 F2 J s S. destruct m as [|m]; [lia|]. rewrite run_S. cbn [ParseModel.step]. unfold parseBinding.
  assert (E : w ++ field_text k t ++ x = w ++ keyText bare k ++ b " = " ++ t ++ b ";" ++ x).
  { unfold field_text. rewrite <- !app_assoc. reflexivity. }
  rewrite E in S.
  apply ends_bind. eapply ends_mono; [eapply (path_reads bare Hb src k w (t ++ b ";" ++ x) m ms sy ds j M W NE); [lia| | |exact S]|].
  { destruct (bare k); [exact I|exact J]. }
  { destruct (bare k); lia. }
  intros a s1 (p & -> & (i & r & nm & dts & -> & SN) & S1 & B1).
  apply ends_bind. apply ends_assertLast; [exact B1|].
  eapply ends_withSync; [exact S1|]. intros s2 S2 P2.
  eapply ends_withSync; [exact S2|]. intros s3 S3 P3.
  assert (LX : lexes (mode_of ms) (b " = " ++ t ++ b ";" ++ x) tok_eq ["="%char] ([" "%char] ++ t ++ b ";" ++ x)).
  { rewrite M. apply (lexes_eq [" "%char] (t ++ b ";" ++ x)). reflexivity. }
  apply ends_bind. eapply ends_expect; [exact S3|exact LX|]. intros t4 s4 K4 V4 S4 P4.
  apply ends_bind. eapply ends_consume; [exact S4|exact LX|]. intros s5 S5 B5.
  apply ends_bind. eapply ends_mkMisc; [exact S5|]. intros eq s6 S6 P6.
  apply ends_bind. eapply ends_mono; [eapply (Ex [" "%char] (b ";" ++ x) m ms); [exact M|reflexivity|apply closes_semi|lia| |exact S6]|]. { lia. }
  intros a s7 (n & -> & Dn & S7 & B7).
  apply ends_bind. apply ends_ret.
  assert (LS : lexes (mode_of ms) (b ";" ++ x) tok_semi_colon [";"%char] x).
  { rewrite M. apply (lexes_punct [] ";"%char); [reflexivity|inp]. }
  apply ends_bind. unfold peekk. apply ends_bind. eapply ends_peek0; [exact S7|exact LS|]. intros t8 s8 K8 V8 S8 P8 _. apply ends_ret.
  rewrite K8. cbn [tkind_beq].
  apply ends_bind. eapply ends_consume; [exact S8|exact LS|]. intros s9 S9 B9.
  apply ends_bind. apply ends_toLast; [exact B9|]. intros r9.
  apply ends_bind. eapply ends_fresh; [exact S9|]. intros i10 s10 S10 P10.
  apply ends_ret. eexists _, _. split; [exact S10|]. intros s11 S11 P11.
  eexists _, _. split; [exact S11|]. intros s12 S12 P12.
  eexists. split; [reflexivity|]. split; [|split; [eapply St_more; [exact S12|lia]|unfold begun; congruence]].
  eexists _, _, _, _, _, _. split; [reflexivity|]. split; [reflexivity|]. split; [exact SN|exact Dn].
Qed.


(** no more bindings: the closing brace *)
Lemma binding_none m ms sy ds w x j s : mode_of ms = PS_Expr -> blanks w -> St ms sy ds (w ++ "}"%char :: x) j s ->
  ends (run (S (S (S m))) QBinding) s (fun a s' => a = None /\ St ms sy ds (w ++ "}"%char :: x) (Nat.max j 1) s' /\ plast s' = plast s).
Proof.
  intros M W S. rewrite run_S. cbn [ParseModel.step]. unfold parseBinding. rewrite run_S. cbn [ParseModel.step]. unfold parseAttrPath.
  rewrite run_S. cbn [ParseModel.step]. unfold parseAttrName.
  apply ends_bind. apply ends_bind. apply ends_bind. eapply ends_peek0; [exact S|rewrite M; apply lexes_punct; [exact W|inp]|].
  intros t s1 K1 V1 S1 P1 _. rewrite K1. apply ends_ret. apply ends_ret. apply ends_ret. auto.
Qed.
Lemma inherit_none m ms sy ds w x j s : mode_of ms = PS_Expr -> blanks w -> St ms sy ds (w ++ "}"%char :: x) j s ->
  ends (run (S m) QInherit) s (fun a s' => a = None /\ St ms sy ds (w ++ "}"%char :: x) (Nat.max j 1) s' /\ plast s' = plast s).
Proof.
  intros M W S. rewrite run_S. cbn [ParseModel.step]. unfold parseInherit.
  apply ends_bind. eapply ends_peek0; [exact S|rewrite M; apply lexes_punct; [exact W|inp]|].
  intros t s1 K1 V1 S1 P1 _. rewrite K1. cbn [tkind_beq negb]. apply ends_ret. auto.
Qed.
Lemma remove_none ms sy ds w x j s : mode_of ms = PS_Expr -> blanks w -> kmem tok_r_curly sy = true -> St ms sy ds (w ++ "}"%char :: x) j s ->
  ends (removeUnexpected src) s (fun a s' => a = false /\ St ms sy ds (w ++ "}"%char :: x) (Nat.max j 1) s' /\ plast s' = plast s).
Proof.
  intros M W KM S. assert (L : lexes (mode_of ms) (w ++ "}"%char :: x) tok_r_curly ["}"%char] x) by (rewrite M; apply lexes_punct; [exact W|inp]).
  unfold removeUnexpected. apply ends_bind. unfold consumeAsUnknown.
  apply ends_bind. eapply ends_peek0; [exact S|exact L|]. intros t s1 K1 V1 S1 P1 _.
  apply ends_bind. cbn [unknown_loop]. apply ends_bind. eapply ends_peek0; [exact S1|exact L|]. intros t2 s2 K2 V2 S2 P2 _.
  exists false, s2. split.
  - rewrite K2. destruct S2 as (_ & _ & -> & _). rewrite KM. rewrite orb_true_r. reflexivity.
  - apply ends_ret. apply ends_ret. split; [reflexivity|]. split; [eapply St_more; [exact S2|lia]|congruence].
Qed.

Lemma binds_loop sep ind x cb : blanks sep -> blanks ind -> forall (o : list (bytes * json)) ts acc m ms sy ds j s,
  mode_of ms = PS_Expr -> kmem tok_r_curly sy = true -> Forall2 (fun f t => Expr (snd f) t /\ fst f <> []) o ts ->
  10 * List.length (body sep (ofields o ts)) + 10 <= m -> begun s ->
  (match o with [] => j <= 2 | (k, _) :: _ => if bare k then j <= 2 else j <= 1 end) ->
  St ms sy ds (body sep (ofields o ts) ++ ind ++ "}"%char :: x) j s ->
  ends (run m (QBindsLoop cb acc)) s (fun a s' => exists new, Forall2 (fun f bd => field_binding (fun n => denotes n (snd f)) (fst f) bd) o new /\
    (match acc ++ new with [] => a = None | bs => exists i r, a = Some (NBinds i r bs) end) /\
    St ms sy ds (ind ++ "}"%char :: x) 2 s' /\ begun s').
Proof.
  intros Wp Wi. induction o as [|[k v] o IH]; intros ts acc m ms sy ds j s M KM F2 Fu B J S.
  - assert (ts = []) by (inversion F2; reflexivity). subst ts. cbn [ofields combine map body flat_map app List.length] in S, Fu.
    destruct m as [|m]; [lia|]. rewrite run_S. cbn [ParseModel.step]. unfold parseBindsLoop.
    do 3 (destruct m as [|m]; [lia|]).
    pose proof Wi as Wl.
    apply ends_bind. eapply ends_mono; [eapply binding_none; [exact M|exact Wl|exact S]|]. intros a s1 (-> & S1 & P1).
    apply ends_bind. eapply ends_mono; [eapply inherit_none; [exact M|exact Wl|exact S1]|]. intros a s2 (-> & S2 & P2).
    apply ends_bind. eapply ends_mono; [eapply remove_none; [exact M|exact Wl|exact KM|exact S2]|]. intros a s3 (-> & S3 & P3).
    assert (B3 : begun s3) by (unfold begun; congruence).
    assert (S3' : St ms sy ds (ind ++ "}"%char :: x) 2 s3) by (eapply St_more; [exact S3|lia]).
    destruct acc as [|a0 acc].
    + apply ends_ret. exists []. split; [constructor|]. split; [reflexivity|]. auto.
    + apply ends_bind. apply ends_assertLast; [exact B3|]. apply ends_bind. apply ends_toLast; [exact B3|]. intros r.
      apply ends_bind. eapply ends_fresh; [exact S3'|]. intros i s4 S4 P4. apply ends_ret.
      exists []. split; [constructor|]. rewrite app_nil_r. split; [eauto|]. split; [exact S4|unfold begun; congruence].
  - destruct ts as [|t ts]; [inversion F2|].
    assert (H1 : Expr v t /\ k <> []) by (inversion F2; assumption).
    assert (H2 : Forall2 (fun f t => Expr (snd f) t /\ fst f <> []) o ts) by (inversion F2; assumption). clear F2.
    destruct H1 as (Ex & NE).
    set (rst := body sep (ofields o ts) ++ ind ++ "}"%char :: x) in *.
    assert (E : body sep (ofields ((k, v) :: o) (t :: ts)) ++ ind ++ "}"%char :: x = sep ++ field_text k t ++ rst).
    { unfold rst. cbn [ofields combine map body flat_map fst snd]. rewrite <- !app_assoc. reflexivity. }
    rewrite E in S.
    assert (LB : List.length (body sep (ofields ((k, v) :: o) (t :: ts))) >= List.length k + List.length t + 4 + List.length (body sep (ofields o ts))).
    { unfold ofields, body. cbn [combine map flat_map fst snd]. unfold field_text. rewrite !app_length. cbn [List.length b list_ascii_of_string]. 
      pose proof (key_length bare k). lia. }
    destruct m as [|m]; [lia|]. rewrite run_S. cbn [ParseModel.step]. unfold parseBindsLoop.
    apply ends_bind. eapply ends_mono.
    { eapply (binding_reads k v t sep rst m ms sy ds j M); [exact Wp|exact NE|exact Ex|lia|lia|exact J|exact S]. }
    intros a s1 (n & -> & Fb & S1 & B1).
    eapply ends_mono.
    { eapply (IH ts (acc ++ [n]) m ms sy ds 0 s1 M KM H2); [lia|exact B1| |exact S1].
      destruct o as [|[k2 v2] o]; [lia|]. destruct (bare k2); lia. }
    intros a s2 (new & F3 & A3 & S3 & B3). exists (n :: new). split; [now constructor|]. rewrite <- app_assoc in A3. auto.
Qed.

Lemma attrs_reads sep ind x o ts w m ms sy ds j : blanks sep -> blanks ind -> blanks w -> mode_of ms = PS_Expr ->
  Forall2 (fun f t => Expr (snd f) t /\ fst f <> []) o ts -> NoDup (map fst o) ->
  10 * List.length (body sep (ofields o ts)) + 14 <= m -> j <= maxj bare (JObject o) ->
  reads m QAttrs ms sy ds (w ++ "{"%char :: body sep (ofields o ts) ++ ind ++ "}"%char :: x) j (fun n => denotes n (JObject o)) x 1.
Proof.
  intros Wp Wi W M F2 ND F J s S. destruct m as [|m]; [lia|]. rewrite run_S. cbn [ParseModel.step]. unfold parseExprAttrs.
  set (bd := body sep (ofields o ts)) in *.
  assert (L1 : lexes (mode_of ms) (w ++ "{"%char :: bd ++ ind ++ "}"%char :: x) tok_l_curly ["{"%char] (bd ++ ind ++ "}"%char :: x)).
  { rewrite M. apply lexes_punct; [exact W|inp]. }
  eapply ends_withSync; [exact S|]. intros s0 S0 P0.
  apply ends_bind. eapply ends_peek0; [exact S0|exact L1|]. intros t1 s1 K1 V1 S1 P1 _. rewrite K1. cbn [tkind_beq].
  apply ends_bind. apply ends_ret.
  apply ends_bind. eapply ends_expect; [exact S1|exact L1|]. intros t2 s2 K2 V2 S2 P2.
  apply ends_bind. apply ends_bind. eapply ends_consume; [exact S2|exact L1|]. intros s3 S3 B3. apply ends_ret.
  apply ends_bind. apply ends_assertLast; [exact B3|].
  (* the bindings *)
  set (j3 := Nat.pred (Nat.max (Nat.max (Nat.max j 1) 1) 1)) in *.
  assert (J3 : match o with [] => j3 <= 2 | (k, _) :: _ => if bare k then j3 <= 2 else j3 <= 1 end).
  { unfold j3. destruct o as [|[k v] o]; cbn [maxj] in J; [lia|]. destruct (bare k); lia. }
  assert (FT : exists k v r, lexes PS_Expr (bd ++ ind ++ "}"%char :: x) k v r).
  { unfold bd. destruct o as [|[k v] o]; [|destruct ts as [|t ts]].
    - eexists _, _, _. cbn [ofields combine map body flat_map app]. apply lexes_punct; [exact Wi|inp].
    - inversion F2.
    - unfold ofields, body. cbn [combine map flat_map fst snd]. unfold field_text. rewrite <- !app_assoc.
      edestruct (key_first bare Hb k sep) as (kk & vv & r & L & _); [exact Wp| |exists kk, vv, r; exact L]. apply stops_sp. }
  destruct FT as (kf & vf & rf & LF_).
  apply ends_bind.
  destruct m as [|m]; [lia|]. rewrite run_S. cbn [ParseModel.step]. unfold parseBinds.
  apply ends_bind. unfold lCur. apply ends_bind. eapply ends_peek0; [exact S3|rewrite M; exact LF_|]. intros t4 s4 K4 V4 S4 P4 _. apply ends_ret.
  eapply ends_withSync; [exact S4|]. intros s5 S5 P5.
  eapply ends_withSync; [exact S5|]. intros s6 S6 P6.
  eapply ends_withSync; [exact S6|]. intros s7 S7 P7.
  eapply ends_withSync; [exact S7|]. intros s8 S8 P8.
  assert (B8 : begun s8) by (unfold begun in *; congruence).
  eapply ends_mono.
  { eapply (binds_loop sep ind x (lcur (trange t4)) Wp Wi o ts [] m ms); [exact M| |exact F2|fold bd; lia|exact B8| |exact S8].
    - cbn. rewrite ?orb_true_r. reflexivity.
    - destruct o as [|[k v] o]; [lia|]. destruct (bare k); lia. }
  intros a s9 (new & Fn & An & S9 & B9).
  eexists _, _. split; [exact S9|]. intros s10 S10 P10.
  eexists _, _. split; [exact S10|]. intros s11 S11 P11.
  eexists _, _. split; [exact S11|]. intros s12 S12 P12.
  eexists _, _. split; [exact S12|]. intros s13 S13 P13.
  assert (L2 : lexes (mode_of ms) (ind ++ "}"%char :: x) tok_r_curly ["}"%char] x) by (rewrite M; apply lexes_punct; [exact Wi|inp]).
  apply ends_bind. eapply ends_expect; [exact S13|exact L2|]. intros t14 s14 K14 V14 S14 P14.
  apply ends_bind. eapply ends_consume; [exact S14|exact L2|]. intros s15 S15 B15.
  apply ends_bind. apply ends_toLast; [exact B15|]. intros r.
  apply ends_bind. unfold onExprAttrs.
  assert (BL : binds_list a = new).
  { cbn [app] in An. destruct new; [now subst a|]. destruct An as (i & r0 & ->). reflexivity. }
  rewrite BL.
  destruct (lower_fields new (map fst o) [] s15) as (st & EL & _ & nw & PM & FN & MN).
  { clear - Fn. induction Fn as [|f bd o new (i & r & p & v & eq & nm & A1 & A2 & A3 & _) _ IH]; cbn [map]; constructor; [|exact IH].
    exists i, r, p, v, eq, nm. auto. }
  { exact ND. } { reflexivity. } { constructor. }
  apply ends_bind. exists (SA st []), s15. split; [exact EL|].
  apply ends_bind. eapply ends_fresh; [exact S15|]. intros i s16 S16 P16. apply ends_ret. apply ends_ret.
  eexists _, _. split; [exact S16|]. intros s17 S17 P17.
  eexists. split; [reflexivity|]. split; [|split; [eapply St_more; [exact S17|lia]|unfold begun in *; congruence]].
  cbn [sa_static sa_dynamic]. econstructor; [exact PM|]. clear - Fn FN MN. cbn [app].
  revert o Fn MN. induction FN as [|f bd nw new H1 _ IH]; intros o Fn MN.
  - inversion Fn. constructor.
  - destruct o as [|g o]; [discriminate|]. cbn [map] in MN. injection MN as E1 E2.
    assert (Fg : field_binding (fun n => denotes n (snd g)) (fst g) bd) by (inversion Fn; assumption).
    assert (Fo : Forall2 (fun f bd => field_binding (fun n => denotes n (snd f)) (fst f) bd) o new) by (inversion Fn; assumption).
    constructor; [|now apply IH].
    destruct H1 as (i & r & p & eq & -> & A). destruct Fg as (i2 & r2 & p2 & v2 & eq2 & nm & E & _ & _ & D). injection E as _ _ _ <- _.
    auto.
Qed.

Lemma object_value sep ind o ts t : blanks sep -> blanks ind ->
  Forall2 (fun f t => Expr (snd f) t /\ fst f <> []) o ts -> NoDup (map fst o) ->
  t = b "{" ++ body sep (ofields o ts) ++ ind ++ b "}" ->
  Simple (JObject o) t /\ Expr (JObject o) t /\ First t.
Proof.
  intros Wp Wi F2 ND T.
  assert (TX : forall w x, w ++ t ++ x = w ++ "{"%char :: body sep (ofields o ts) ++ ind ++ "}"%char :: x).
  { intros w x. rewrite T, <- !app_assoc. reflexivity. }
  assert (L : forall w x, blanks w -> lexes PS_Expr (w ++ t ++ x) tok_l_curly ["{"%char] (body sep (ofields o ts) ++ ind ++ "}"%char :: x)).
  { intros w x W. rewrite TX. apply lexes_punct; [exact W|inp]. }
  assert (NN : ~ negative (JObject o)) by (intros (z & [E|E] & _); discriminate).
  assert (LT : List.length t >= 2 + List.length (body sep (ofields o ts))).
  { rewrite T, !app_length. cbn [b list_ascii_of_string List.length]. lia. }
  assert (Sm : Simple (JObject o) t).
  { intros _ w x m ms sy ds j M W X F J s S.
    destruct m as [|m]; [lia|]. rewrite run_S. cbn [ParseModel.step]. unfold parseExprSimple.
    apply ends_bind. eapply ends_peek0; [exact S|rewrite M; apply L; exact W|]. intros t1 s1 K1 V1 S1 P1 _. rewrite K1.
    rewrite TX in S1. eapply (attrs_reads sep ind x o ts w m ms sy ds (Nat.max j 1)); try eassumption; [lia|].
    cbn [maxj] in J |- *. destruct o as [|[k ?] ?]; [lia|]. destruct (bare k); lia. }
  split; [exact Sm|]. split.
  - intros w x m ms sy ds j M W C F J s S. destruct m as [|m]; [lia|]. rewrite run_S. cbn [ParseModel.step]. unfold parseExpr.
    apply ends_bind. unfold peekk at 1. apply ends_bind.
    eapply ends_peek0; [exact S|rewrite M; apply L; exact W|]. intros t1 s1 K1 V1 S1 P1 _. apply ends_ret. rewrite K1.
    assert (G : forall j, Nat.max j 1 <= maxj bare (JObject o) -> reads m (QOp 0) ms sy ds (w ++ t ++ x) j (fun n => denotes n (JObject o)) x 1).
    { intros j' J'. eapply (op_simple src bare (JObject o) t tok_l_curly); try eassumption; try discriminate; [apply L; exact W|lia]. }
    destruct o as [|[k v] o].
    + assert (ts = []) by (inversion F2; reflexivity). subst ts. cbn [ofields combine map body flat_map app] in *.
      pose proof C as (X & kx & vx & rx & LX & KX).
      assert (L2 : lexes PS_Expr (ind ++ "}"%char :: x) tok_r_curly ["}"%char] x) by (apply lexes_punct; [exact Wi|inp]).
      apply ends_bind. unfold peekk at 1. apply ends_bind.
      eapply (ends_peek 1 ms sy ds _ _ s1 [(tok_l_curly, ["{"%char]); (tok_r_curly, ["}"%char])]); [exact S1| |reflexivity|reflexivity|].
      { rewrite M. econstructor; [apply L; exact W|]. econstructor; [exact L2|constructor]. }
      intros t2 s2 K2 V2 S2 P2 _. apply ends_ret. rewrite K2.
      apply ends_bind. unfold peekk at 1. apply ends_bind.
      eapply (ends_peek 2 ms sy ds _ _ s2 [(tok_l_curly, ["{"%char]); (tok_r_curly, ["}"%char]); (kx, vx)]); [exact S2| |reflexivity|reflexivity|].
      { rewrite M. econstructor; [apply L; exact W|]. econstructor; [exact L2|]. econstructor; [exact LX|constructor]. }
      intros t3 s3 K3 V3 S3 P3 _. apply ends_ret. rewrite K3.
      assert (S3' : St ms sy ds (w ++ t ++ x) 3 s3) by (eapply St_more; [exact S3|lia]).
      destruct KX as [->| ->]; (apply (G 3); [cbn [maxj]; lia|exact S3']).
    + destruct ts as [|t0 ts]; [inversion F2|].
      assert (EB : exists y, body sep (ofields ((k, v) :: o) (t0 :: ts)) ++ ind ++ "}"%char :: x = sep ++ keyText bare k ++ b " = " ++ y).
      { eexists. unfold ofields, body. cbn [combine map flat_map fst snd]. unfold field_text. rewrite <- !app_assoc. reflexivity. }
      destruct EB as (y & EB).
      assert (Lw : lexes PS_Expr (w ++ t ++ x) tok_l_curly ["{"%char] (sep ++ keyText bare k ++ b " = " ++ y)).
      { rewrite <- EB. apply L; exact W. }
      destruct (key_first bare Hb k sep (b " = " ++ y)) as (kk & vv & r & Lk & KK); [exact Wp|apply stops_sp|].
      apply ends_bind. unfold peekk at 1. apply ends_bind.
      eapply (ends_peek 1 ms sy ds _ _ s1 [(tok_l_curly, ["{"%char]); (kk, vv)]); [exact S1| |reflexivity|reflexivity|].
      { rewrite M. econstructor; [exact Lw|]. econstructor; [exact Lk|constructor]. }
      intros t2 s2 K2 V2 S2 P2 _. apply ends_ret. rewrite K2.
      destruct KK as [(VK & -> & -> & ->)|(VK & -> & -> & ->)].
      * apply ends_bind. unfold peekk at 1. apply ends_bind.
        eapply (ends_peek 2 ms sy ds _ _ s2 [(tok_l_curly, ["{"%char]); (tok_id, k); (tok_eq, ["="%char])]); [exact S2| |reflexivity|reflexivity|].
        { rewrite M. econstructor; [exact Lw|]. econstructor; [exact Lk|]. econstructor; [apply (lexes_eq [" "%char]); reflexivity|constructor]. }
        intros t3 s3 K3 V3 S3 P3 _. apply ends_ret. rewrite K3.
        apply (G 3); [cbn [maxj]; rewrite VK; lia|]. eapply St_more; [exact S3|lia].
      * apply (G 2); [cbn [maxj]; rewrite VK; lia|]. eapply St_more; [exact S2|lia].
  - intros w x W X. eexists _, _, _. split; [apply L; exact W|cbn; tauto].
Qed.

End Src.

Section Src.
Variable src : bytes.
Notation Simple := (Simple src isValidNixIdentifier).
Notation Expr := (Expr src).
Let Hb k : isValidNixIdentifier k = true -> isValidNixIdentifier k = true := fun H => H.

(** ** the whole conversion *)

Lemma tame_reads n : forall v indent depth, 101 - depth <= n -> tame v -> jsonToNix v indent depth <> [] ->
  Simple v (jsonToNix v indent depth) /\ Expr v (jsonToNix v indent depth) /\ First (jsonToNix v indent depth).
Proof.
  induction n as [|n IH]; intros v indent depth D T H.
  { destruct v; cbn [jsonToNix] in H; unfold MaxJsonDepth in H; (destruct (Nat.ltb_spec 100 depth); [exfalso; apply H; reflexivity|lia]). }
  assert (D1 : depth <= 100) by (destruct v; cbn [jsonToNix] in H; unfold MaxJsonDepth in H; (destruct (Nat.ltb_spec 100 depth); [exfalso; apply H; reflexivity|lia])).
  assert (D2 : Nat.ltb MaxJsonDepth depth = false) by (unfold MaxJsonDepth; apply Nat.ltb_ge; lia).
  destruct T as [|x|v z N R|x|l Tl Nl|o To ND NE].
  - cbn [jsonToNix] in *. rewrite D2 in *. apply (word_value src isValidNixIdentifier (b "null") "n"%char (b "ull")); try reflexivity.
    + intros. constructor. + intros (z & [E|E] & _); discriminate.
  - cbn [jsonToNix] in *. rewrite D2 in *. destruct x.
    + apply (word_value src isValidNixIdentifier (b "true") "t"%char (b "rue")); try reflexivity; [intros; apply (denotes_bool _ _ _ _ true)|].
      intros (z & [E|E] & _); discriminate.
    + apply (word_value src isValidNixIdentifier (b "false") "f"%char (b "alse")); try reflexivity; [intros; apply (denotes_bool _ _ _ _ false)|].
      intros (z & [E|E] & _); discriminate.
  - assert (E : jsonToNix v indent depth = int_text z) by (destruct N as [-> | ->]; cbn [jsonToNix]; rewrite D2; reflexivity).
    rewrite E. now apply number_value.
  - cbn [jsonToNix] in *. rewrite D2 in *. apply string_value_reads.
  - cbn [jsonToNix] in *. rewrite D2 in *. destruct (too_wide l); [congruence|].
    destruct l as [|v0 l0].
    + apply (array_value src isValidNixIdentifier [] [] [] []); [reflexivity|reflexivity|constructor|right; auto].
    + set (l := v0 :: l0) in *. set (ts := map (fun x => jsonToNix x (S indent) (S depth)) l) in *.
      destruct (lines (spaces (S indent)) ts) as [t|] eqn:EL; [|congruence].
      destruct (lines_body _ _ _ EL) as [EB NB]; [discriminate|].
      apply (array_value src isValidNixIdentifier (spaces (S indent)) (spaces indent) l ts); [apply blanks_spaces|apply blanks_spaces| |left].
      * assert (G : forall l', Forall tame l' -> Forall (fun v => ~ negative v) l' -> ~ In [] (map (fun x => jsonToNix x (S indent) (S depth)) l') ->
          Forall2 (fun v t => Simple v t /\ First t /\ ~ negative v) l' (map (fun x => jsonToNix x (S indent) (S depth)) l')).
        { induction l' as [|v' l' IHl]; intros A1 A2 A3; cbn [map]; [constructor|].
          inversion A1; subst. inversion A2; subst. cbn [map In] in A3. constructor; [|apply IHl; auto].
          destruct (IH v' (S indent) (S depth)) as (I1 & I2 & I3); [lia|assumption|intros X; apply A3; left; exact X|]. auto. }
        apply G; assumption.
      * rewrite <- EB. rewrite <- !app_assoc. reflexivity.
  - change (list ascii) with bytes in *. cbn [jsonToNix] in *. rewrite D2 in *.
    match type of H with (if ?c then _ else _) <> _ => destruct c end; [congruence|].
    destruct o as [|f0 o0].
    + apply (object_value src isValidNixIdentifier Hb [] [" "%char] [] []); [reflexivity|reflexivity|constructor|constructor|reflexivity].
    + set (o := f0 :: o0) in *.
      set (xs := map (fun kv : bytes * json => match jsonToNix (snd kv) (S indent) (S depth) with [] => [] | t => quoteNixAttrKey (fst kv) ++ b " = " ++ t ++ b ";" end) o) in *.
      destruct (lines (spaces (S indent)) xs) as [t|] eqn:EL; [|congruence].
      destruct (lines_body _ _ _ EL) as [EB NB]; [discriminate|].
      set (ts := map (fun kv : bytes * json => jsonToNix (snd kv) (S indent) (S depth)) o).
      assert (G : forall o', Forall (fun f => tame (snd f)) o' -> ~ In [] (map fst o') ->
          ~ In [] (map (fun kv : bytes * json => match jsonToNix (snd kv) (S indent) (S depth) with [] => [] | t => quoteNixAttrKey (fst kv) ++ b " = " ++ t ++ b ";" end) o') ->
          Forall2 (fun f t => Expr (snd f) t /\ fst f <> []) o' (map (fun kv : bytes * json => jsonToNix (snd kv) (S indent) (S depth)) o') /\
          ofields isValidNixIdentifier o' (map (fun kv : bytes * json => jsonToNix (snd kv) (S indent) (S depth)) o') =
          map (fun kv : bytes * json => match jsonToNix (snd kv) (S indent) (S depth) with [] => [] | t => quoteNixAttrKey (fst kv) ++ b " = " ++ t ++ b ";" end) o').
      { induction o' as [|[k' v'] o' IHo]; intros A1 A2 A3; [split; [constructor|reflexivity]|].
        cbn [map fst snd In] in *. inversion A1; subst. destruct IHo as [I1 I2]; auto.
        assert (NV : jsonToNix v' (S indent) (S depth) <> []) by (intros X; apply A3; left; now rewrite X).
        split.
        - constructor; [|exact I1]. split; [|cbn; intros X; apply A2; left; exact X]. cbn [snd].
          destruct (IH v' (S indent) (S depth)) as (_ & J2 & _); [lia|assumption|exact NV|exact J2].
        - unfold ofields. cbn [combine map fst snd]. f_equal; [|exact I2]. unfold field_text.
          destruct (jsonToNix v' (S indent) (S depth)); [congruence|reflexivity]. }
      destruct (G o To NE NB) as [G1 G2].
      apply (object_value src isValidNixIdentifier Hb (LF ++ spaces (S indent)) (LF ++ spaces indent) o ts); [apply blanks_lf, blanks_spaces|apply blanks_lf, blanks_spaces|exact G1|exact ND|].
      unfold ts. rewrite G2. fold xs. rewrite <- EB. rewrite <- !app_assoc. reflexivity.
Qed.
End Src.

(** the text of an expression is the whole document *)
Lemma parse_reads v t : Expr t v t -> exists n, parse t = Ok (Some n, []) /\ denotes n v.
Proof.
  intros E.
  assert (S0 : St [PS_Expr] [] [] t 0 (pinit t)).
  { split; [reflexivity|]. split; [discriminate|]. split; [reflexivity|]. split; [cbn; lia|]. eexists. constructor. }
  assert (G : ends (let! e := run t (parse_fuel t) QExpr in
     let! tt0 := peek 0 in
     do! (if tkind_beq (tk tt0) tok_eof then ret tt else emit (diag0 DK_UnexpectedText (trange tt0))) in ret e) (pinit t)
    (fun a s => exists n, a = Some n /\ denotes n v /\ diags (plex s) = [])).
  { apply ends_bind. eapply ends_mono.
    { apply (E [] [] (parse_fuel t) [PS_Expr] [] [] 0); [reflexivity|reflexivity|apply closes_end|unfold parse_fuel; lia|lia|].
      rewrite app_nil_r. exact S0. }
    intros a s (n & -> & Dn & S1 & B1).
    assert (LE : lexes PS_Expr [] tok_eof [] []) by now apply (lexes_eof []).
    apply ends_bind. eapply ends_peek0; [exact S1|exact LE|]. intros t2 s2 K2 V2 S2 P2 PB. rewrite K2. cbn [tkind_beq].
    apply ends_bind. apply ends_ret. apply ends_ret. exists n. split; [reflexivity|]. split; [exact Dn|].
    destruct S2 as (_ & _ & _ & LN & c & LK).
    destruct (pbuf s2) as [|x [|y bf]]; [cbn in PB; lia| |cbn in LN; lia].
    inversion LK as [|l tk1 l1 ts l2 LX LK2]; subst. inversion LK2; subst.
    destruct (LE c []) as (t' & c' & LL & _). cbn [mode_of hd] in LX. rewrite LL in LX. injection LX as _ <-. reflexivity. }
  destruct G as (a & s & R & n & -> & Dn & Ds).
  exists n. split; [|exact Dn]. unfold parse, parse_st. rewrite R, Ds. reflexivity.
Qed.

Lemma json_reads v indent depth : tame v -> jsonToNix v indent depth <> [] ->
  exists n, parse (jsonToNix v indent depth) = Ok (Some n, []) /\ denotes n v.
Proof.
  intros T H. apply parse_reads. eapply (tame_reads _ 101); [lia|exact T|exact H].
Qed.

Lemma string_reads_back x : exists n, parse (b """" ++ escapeNixString x ++ b """") = Ok (Some n, []) /\ string_value n x.
Proof.
  destruct (json_reads (JString x) 0 0) as (n & P & D); [constructor|cbn; discriminate|].
  exists n. split; [exact P|]. inversion D; subst; try (destruct H as [X|X]; discriminate); assumption.
Qed.

(** one field on one line *)
Lemma field_reads_back bare k : (forall k, bare k = true -> isValidNixIdentifier k = true) -> k <> [] ->
  exists n, parse (b "{ " ++ keyText bare k ++ b " = 1; }") = Ok (Some n, []) /\ denotes n (JObject [(k, JInt 1)]).
Proof.
  intros Hb NE. apply parse_reads. set (src := b "{ " ++ keyText bare k ++ b " = 1; }") at 1.
  assert (V : Simple src bare (JInt 1) (b "1") /\ Expr src (JInt 1) (b "1") /\ First (b "1")).
  { change (b "1") with (int_text 1). apply number_value; [now left|lia]. }
  apply (object_value src bare Hb [" "%char] [" "%char] [(k, JInt 1)] [b "1"]); [reflexivity|reflexivity| | |].
  - constructor; [|constructor]. split; [apply V|exact NE].
  - repeat constructor. intros [].
  - unfold ofields, body, field_text. cbn [combine map flat_map fst snd]. rewrite app_nil_r, <- !app_assoc. reflexivity.
Qed.
Lemma key_reads_back k : k <> [] -> exists n, parse (b "{ " ++ quoteNixAttrKey k ++ b " = 1; }") = Ok (Some n, []) /\
  denotes n (JObject [(k, JInt 1)]).
Proof. intros NE. now apply (field_reads_back isValidNixIdentifier). Qed.
Lemma quoted_reads_back k : k <> [] -> exists n, parse (b "{ " ++ (b """" ++ escapeNixString k ++ b """") ++ b " = 1; }") = Ok (Some n, []) /\
  denotes n (JObject [(k, JInt 1)]).
Proof. intros NE. apply (field_reads_back (fun _ => false)); [discriminate|exact NE]. Qed.
