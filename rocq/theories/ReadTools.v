(** Reading back printed text: what the lexer and the parser do on text of a known shape. *)
From Verif Require Import Base Diag LexModel AstModel PSupModel SemaModel ParseModel LexProofs.

(** In mode [m], text [r] starts (after trivia) with a token of kind [k] and text [v], and [r'] follows it; the
    lexer reports nothing. *)
Definition lexes (m : pmode) (r : bytes) (k : tkind) (v r' : bytes) : Prop :=
  forall c ds, exists t c', lex_mode m (Lst c r ds) = Ok (t, Lst c' r' ds) /\ tk t = k /\ tview t = v.

Inductive stream (m : pmode) : bytes -> list (tkind * bytes) -> Prop :=
| stream_nil r : stream m r []
| stream_cons r k v r' ts : lexes m r k v r' -> stream m r' ts -> stream m r ((k, v) :: ts).

(** ** Trivia *)

Definition blanks (w : bytes) : Prop := forallb isspace w = true.
(** text that does not start with trivia *)
Definition solid (x : bytes) : Prop :=
  match x with
  | [] => True
  | c :: _ => isspace c = false /\ c <> "#"%char /\ c <> "/"%char
  end.

Lemma cw_span P w x p : forallb P w = true -> (match x with [] => True | c :: _ => P c = false end) ->
  cw_aux P (w ++ x) p = (advs w p, x).
Proof.
  revert p. induction w as [|c w IH]; intros p F X; cbn in *.
  - destruct x; cbn; [reflexivity|]. now rewrite X.
  - apply andb_prop in F as [F1 F2]. rewrite F1. apply IH; assumption.
Qed.

Lemma sw_ne p0 p a s : a <> p0 -> starts_with (p0 :: p) (a :: s) = false.
Proof. intros N. cbn [starts_with]. destruct (Ascii.eqb_spec p0 a); [congruence|reflexivity]. Qed.

Lemma comments_none c x ds : solid x -> x <> [] -> consumeComments (Lst c x ds) = Ok (false, Lst c x ds).
Proof.
  intros S N. destruct x as [|a x]; [congruence|]. destruct S as (_ & A & B).
  unfold consumeComments, consumePrefix, peekPrefix. cbn [eof rest].
  assert (E1 : starts_with (b "/*") (a :: x) = false).
  { apply sw_ne. assumption. }
  rewrite E1. cbn [bind]. cbn [rest].
  assert (E2 : starts_with (b "#") (a :: x) = false).
  { apply sw_ne. assumption. }
  rewrite E2. reflexivity.
Qed.

Lemma trivia_solid f c x ds : solid x -> consumeTrivia_f (S f) (Lst c x ds) = Ok (Lst c x ds).
Proof.
  intros S. destruct x as [|a x]; [reflexivity|].
  cbn [consumeTrivia_f eof rest]. unfold consumeWhitespaces. cbn [lpeek rest].
  destruct (S) as (A & _). rewrite A. cbn [bind]. rewrite comments_none; [reflexivity|exact S|discriminate].
Qed.

Lemma trivia_blanks w c x ds : blanks w -> solid x -> exists c', consumeTrivia (Lst c (w ++ x) ds) = Ok (Lst c' x ds).
Proof.
  intros W S. unfold consumeTrivia. cbn [rest]. destruct w as [|a w].
  - exists c. apply trivia_solid; assumption.
  - assert (L : exists f, List.length ((a :: w) ++ x) = Datatypes.S f) by (cbn; eauto). destruct L as [f L]. rewrite L.
    change (consumeTrivia_f (Datatypes.S (Datatypes.S f)) (Lst c ((a :: w) ++ x) ds)) with
      (let* (wq, s1) := consumeWhitespaces (Lst c ((a :: w) ++ x) ds) in
        if wq then consumeTrivia_f (Datatypes.S f) s1
        else
          let* (cq, s2) := consumeComments s1 in
          if cq then consumeTrivia_f (Datatypes.S f) s2 else Ok s2).
    unfold blanks in W. cbn in W. apply andb_prop in W as [W1 W2].
    unfold consumeWhitespaces. cbn [lpeek rest app]. rewrite W1.
    rewrite (consume1_spec a (w ++ x)) by reflexivity. cbn [bind rest cur diags].
    unfold consumeWhile. cbn [rest cur diags]. rewrite cw_span; [|assumption|].
    + cbn [bind]. eexists. apply trivia_solid; assumption.
    + destruct x; [exact I|]. apply S.
Qed.

(** ** Single tokens *)

Definition token_at (r : bytes) (k : tkind) (v r' : bytes) : Prop :=
  forall c ds, exists t c', lexToken (Lst c r ds) = Ok (t, Lst c' r' ds) /\ tk t = k /\ tview t = v.

Lemma lexes_blanks w r k v r' : blanks w -> solid r -> token_at r k v r' -> lexes PS_Expr (w ++ r) k v r'.
Proof.
  intros W S T c ds. cbn [lex_mode]. unfold lex. destruct (trivia_blanks w c r ds W S) as [c' E]. rewrite E.
  cbn [bind]. apply T.
Qed.

Lemma slice_adv c w r ds ds' : slice_between (Lst c (w ++ r) ds) (Lst (advs w c) r ds') = w.
Proof.
  unfold slice_between. cbn [cur rest]. rewrite advs_off.
  replace (off c + List.length w - off c) with (List.length w) by lia.
  rewrite firstn_app, firstn_all, Nat.sub_diag. cbn. apply app_nil_r.
Qed.

Lemma token_eof : token_at [] tok_eof [] [].
Proof.
  intros c ds. exists (finishToken tok_eof (Lst c [] ds) (Lst c [] ds)), c. cbn. repeat split.
  unfold slice_between. cbn. now rewrite Nat.sub_diag.
Qed.

(** a one-character token whose first character decides *)
Definition punct : list (ascii * tkind) :=
  [("""", tok_dquote); ("}", tok_r_curly); (";", tok_semi_colon); ("{", tok_l_curly); ("[", tok_l_bracket);
   ("]", tok_r_bracket); (",", tok_comma); (":", tok_colon); ("(", tok_l_paren); (")", tok_r_paren);
   ("@", tok_at); ("?", tok_question)]%char.

Lemma token_punct a k r : In (a, k) punct -> token_at (a :: r) k [a] r.
Proof.
  intros I c ds.
  exists (finishToken k (Lst c (a :: r) ds) (Lst (adv a c) r ds)), (adv a c).
  assert (V : tview (finishToken k (Lst c (a :: r) ds) (Lst (adv a c) r ds)) = [a]).
  { apply (slice_adv c [a] r ds ds). }
  split; [|split; [reflexivity|exact V]].
  unfold punct in I. cbn in I.
  repeat (destruct I as [E|I]; [injection E as <- <-; reflexivity|]). contradiction.
Qed.

Lemma token_eq r : (match r with [] => True | c :: _ => c <> "="%char end) -> token_at ("="%char :: r) tok_eq [("="%char)] r.
Proof.
  intros N c ds.
  exists (finishToken tok_eq (Lst c ("="%char :: r) ds) (Lst (adv "=" c) r ds)), (adv "=" c).
  split; [|split; [reflexivity|apply (slice_adv c ["="%char] r ds ds)]].
  unfold lexToken. cbn [lpeek rest]. cbn [tryPath tryURI trySPath bind].
  change (isdigit "=") with false. change (isalpha "=" || Ascii.eqb "=" "_")%bool with false. cbn [bind].
  replace (lexOp "=" (Lst c ("="%char :: r) ds)) with (@Ok (tkind * lst) (tok_eq, Lst (adv "=" c) r ds)); [reflexivity|].
  change (lexOp "=" (Lst c ("="%char :: r) ds)) with (prefix_or "==" tok_op_eq tok_eq (Lst c ("="%char :: r) ds)).
  unfold prefix_or, consumePrefix, peekPrefix. cbn [rest].
  replace (starts_with (b "==") ("="%char :: r)) with false; [reflexivity|].
  destruct r as [|x r]; [reflexivity|]. symmetry. apply (sw_ne "="%char [] x r N).
Qed.


(** ** Words: tokens made of path, scheme and identifier characters *)

(** the characters that may follow a word in printed text *)
Definition stops (x : bytes) : Prop :=
  match x with [] => True | c :: _ => In c [" "; "010"; ";"]%char end.

Lemma span_not P d w x p : forallb (fun c => negb (Ascii.eqb c d)) w = true -> stops x -> In d ["/"; ":"; "."]%char ->
  (forall c, In c [" "; "010"; ";"]%char -> P c = false) ->
  lpeek_is d (let '(p', r') := cw_aux P (w ++ x) p in Lst p' r' []) = false.
Proof.
  revert p. induction w as [|c w IH]; intros p F S D H.
  - destruct x as [|c x]; [reflexivity|]. cbn [app cw_aux]. rewrite (H c S).
    unfold lpeek_is. cbn [rest]. apply Ascii.eqb_neq. intros E.
    cbn in D, S. intuition congruence.
  - cbn [app cw_aux forallb] in *. apply andb_prop in F as [F1 F2]. destruct (P c); [apply IH; assumption|].
    unfold lpeek_is. cbn [rest]. apply negb_true_iff. exact F1.
Qed.

Lemma path_no c w x ds : forallb (fun c => negb (Ascii.eqb c "/") && negb (Ascii.eqb c "~")) w = true -> stops x ->
  consumePathStart (Lst c (w ++ x) ds) = Ok (false, Lst c (w ++ x) ds).
Proof.
  intros F S. unfold consumePathStart.
  assert (T : lpeek_is "~" (Lst c (w ++ x) ds) = false).
  { unfold lpeek_is. cbn [rest]. destruct w as [|a w]; cbn [app].
    - destruct x as [|a x]; [reflexivity|]. apply Ascii.eqb_neq. intros ->. cbn in S. intuition congruence.
    - cbn [forallb] in F. apply andb_prop in F as [F _]. apply andb_prop in F as [_ F]. now apply negb_true_iff. }
  unfold consumeOne at 1. rewrite T. cbn [bind].
  assert (F2 : forallb (fun c => negb (Ascii.eqb c "/")) w = true).
  { apply forallb_forall. intros a A. rewrite forallb_forall in F. specialize (F a A). now apply andb_prop in F. }
  assert (K : lpeek_is "/" (snd (consumeManyPathChar (Lst c (w ++ x) ds))) = false).
  { unfold consumeManyPathChar, consumeMany. cbn [rest]. destruct (w ++ x) as [|a y] eqn:E; [reflexivity|].
    destruct (isPathChar a) eqn:Pa.
    - cbn [snd]. unfold consumeWhile. cbn [rest cur diags]. rewrite <- E.
      pose proof (span_not isPathChar "/" w x c F2 S) as K.
      destruct (cw_aux isPathChar (w ++ x) c) as [p' r']. apply K; [now left|].
      intros a0 A. cbn in A. intuition subst; reflexivity.
    - cbn [snd]. unfold lpeek_is. cbn [rest]. apply Ascii.eqb_neq. intros ->.
      destruct w as [|a w]; cbn [app] in E; [subst x; cbn in S; intuition congruence|].
      injection E as -> E. cbn in F2. discriminate. }
  destruct (consumeManyPathChar (Lst c (w ++ x) ds)) as [q s2]. cbn [snd] in K.
  unfold consumeOne. rewrite K. reflexivity.
Qed.

Lemma uri_no c w x ds : forallb (fun c => negb (Ascii.eqb c ":")) w = true -> stops x ->
  consumeURI (Lst c (w ++ x) ds) = Ok (false, Lst c (w ++ x) ds).
Proof.
  intros F S. unfold consumeURI, consumeWhile. cbn [rest cur diags].
  pose proof (span_not isUriSchemeChar ":" w x c F S) as K.
  destruct (cw_aux isUriSchemeChar (w ++ x) c) as [p' r'].
  assert (K' : lpeek_is ":" (Lst p' r' ds) = false).
  { apply K; [now right; left|]. intros a A. cbn in A. intuition subst; reflexivity. }
  rewrite K'. reflexivity.
Qed.

(** characters of identifiers and numbers *)
Definition wordy (c : ascii) : bool := isIdentifierChar c.
Lemma wordy_slash c : wordy c = true -> (negb (Ascii.eqb c "/") && negb (Ascii.eqb c "~"))%bool = true /\ negb (Ascii.eqb c ":") = true.
Proof. destruct c as [[|] [|] [|] [|] [|] [|] [|] [|]]; vm_compute; intuition congruence. Qed.

Lemma words_ok w : forallb wordy w = true ->
  forallb (fun c => negb (Ascii.eqb c "/") && negb (Ascii.eqb c "~")) w = true /\ forallb (fun c => negb (Ascii.eqb c ":")) w = true.
Proof.
  intros F. rewrite forallb_forall in F. split; apply forallb_forall; intros a A; now apply wordy_slash, F.
Qed.

Lemma tryPath_word a c w x ds : forallb wordy w = true -> stops x -> tryPath a (Lst c (w ++ x) ds) = Ok (false, Lst c (w ++ x) ds).
Proof.
  intros F S. unfold tryPath. destruct (isPathChar a || Ascii.eqb a "/" || Ascii.eqb a "~")%bool; [|reflexivity].
  apply path_no; [now apply words_ok|assumption].
Qed.
Lemma tryURI_word a c w x ds : forallb wordy w = true -> stops x -> tryURI a (Lst c (w ++ x) ds) = Ok (false, Lst c (w ++ x) ds).
Proof.
  intros F S. unfold tryURI. destruct (isalpha a); [|reflexivity]. apply uri_no; [now apply words_ok|assumption].
Qed.

Lemma stops_not P x : stops x -> P " "%char = false -> P "010"%char = false -> P ";"%char = false ->
  match x with [] => True | c :: _ => P c = false end.
Proof. destruct x as [|c x]; [trivial|]. cbn. intuition subst; assumption. Qed.

(** an identifier or keyword *)

Lemma token_word a w x : isdigit a = false -> (isalpha a || Ascii.eqb a "_")%bool = true -> forallb isIdentifierChar w = true -> stops x ->
  token_at ((a :: w) ++ x) (maybeKW (a :: w)) (a :: w) x.
Proof.
  intros D A W S c ds.
  assert (WA : forallb wordy (a :: w) = true).
  { change (wordy a && forallb isIdentifierChar w = true)%bool. rewrite W, andb_true_r. unfold wordy, isIdentifierChar.
    rewrite D. cbn [orb].
    apply orb_prop in A as [A|A]; [now rewrite A|]. apply Ascii.eqb_eq in A as ->. reflexivity. }
  pose (s := Lst c ((a :: w) ++ x) ds). pose (s4 := Lst (advs (a :: w) c) x ds).
  assert (E4 : lexIdentifier s = Ok s4).
  { unfold lexIdentifier, s. rewrite (consume1_spec a (w ++ x)) by reflexivity. cbn [bind].
    unfold consumeWhile. cbn [rest cur diags].
    rewrite cw_span; [reflexivity|assumption|]. apply stops_not; [assumption| | |]; reflexivity. }
  assert (SL : slice_between s s4 = a :: w) by apply slice_adv.
  exists (finishToken (maybeKW (a :: w)) s s4), (advs (a :: w) c).
  split; [|split; [reflexivity|exact SL]].
  unfold lexToken. change (lpeek (Lst c ((a :: w) ++ x) ds)) with (Some a). cbv beta iota.
  rewrite tryPath_word by assumption. cbn [bind]. rewrite tryURI_word by assumption. cbn [bind].
  rewrite D, A. fold s. rewrite E4. cbn [bind]. rewrite SL. reflexivity.
Qed.

Lemma token_int w x : forallb isdigit w = true -> w <> [] -> stops x -> token_at (w ++ x) tok_int w x.
Proof.
  intros W N S c ds. destruct w as [|a w]; [congruence|].
  assert (IW : forall y, isdigit y = true -> wordy y = true).
  { intros y Y. unfold wordy, isIdentifierChar. now rewrite Y. }
  assert (WA : forallb wordy (a :: w) = true).
  { apply forallb_forall. intros y Y. apply IW. rewrite forallb_forall in W. now apply W. }
  pose (s := Lst c ((a :: w) ++ x) ds). pose (s4 := Lst (advs (a :: w) c) x ds).
  assert (SL : slice_between s s4 = a :: w) by apply slice_adv.
  assert (DD : forall y, mem_char y (b "0123456789") = isdigit y).
  { intros y. destruct y as [[|] [|] [|] [|] [|] [|] [|] [|]]; reflexivity. }
  assert (E : lexNumbers s = Ok (tok_int, s4)).
  { unfold lexNumbers, consumeManyDigits, consumeMany, s. cbn [rest app]. rewrite DD.
    pose proof W as W'. cbn [forallb] in W'. apply andb_prop in W' as [W1 W2]. rewrite W1. cbn [negb].
    unfold consumeWhile. cbn [rest cur diags].
    assert (CW : cw_aux (fun c0 => mem_char c0 (b "0123456789")) (a :: w ++ x) c = (advs (a :: w) c, x)).
    { change (a :: w ++ x) with ((a :: w) ++ x). apply cw_span.
      - apply forallb_forall. intros y Y. rewrite DD. rewrite forallb_forall in W. now apply W.
      - apply stops_not; [assumption| | |]; reflexivity. }
    rewrite CW. fold s4.
    assert (L : lpeek_is "." s4 = false).
    { unfold lpeek_is, s4. cbn [rest]. destruct x as [|y x]; [reflexivity|]. apply Ascii.eqb_neq. intros ->.
      cbn in S. intuition congruence. }
    rewrite L. reflexivity. }
  exists (finishToken tok_int s s4), (advs (a :: w) c).
  split; [|split; [reflexivity|exact SL]].
  unfold lexToken. change (lpeek (Lst c ((a :: w) ++ x) ds)) with (Some a). cbv beta iota.
  rewrite tryPath_word by assumption. cbn [bind]. rewrite tryURI_word by assumption. cbn [bind].
  cbn [forallb] in W. apply andb_prop in W as [W1 _]. rewrite W1. fold s. rewrite E. reflexivity.
Qed.

Lemma token_minus w x : forallb isdigit w = true -> w <> [] -> stops x ->
  token_at ("-"%char :: w ++ x) tok_op_negate ["-"%char] (w ++ x).
Proof.
  intros W N S c ds. destruct w as [|a w]; [congruence|].
  assert (WA : forallb wordy ("-"%char :: a :: w) = true).
  { cbn [forallb]. change (wordy "-") with true. cbn [andb]. change (wordy a && forallb wordy w)%bool with (forallb wordy (a :: w)).
    apply forallb_forall. intros y Y. unfold wordy, isIdentifierChar. rewrite forallb_forall in W. now rewrite W. }
  pose (s := Lst c ("-"%char :: (a :: w) ++ x) ds). pose (s4 := Lst (adv "-" c) ((a :: w) ++ x) ds).
  assert (SL : slice_between s s4 = ["-"%char]) by apply (slice_adv c ["-"%char]).
  exists (finishToken tok_op_negate s s4), (adv "-" c).
  split; [|split; [reflexivity|exact SL]].
  unfold lexToken. change (lpeek (Lst c ("-"%char :: (a :: w) ++ x) ds)) with (Some "-"%char). cbv beta iota.
  change ("-"%char :: (a :: w) ++ x) with (("-"%char :: a :: w) ++ x).
  rewrite tryPath_word by assumption. cbn [bind]. rewrite tryURI_word by assumption. cbn [bind].
  change (isdigit "-") with false. change (isalpha "-" || Ascii.eqb "-" "_")%bool with false. cbv iota.
  change (trySPath "-" (Lst c (("-"%char :: a :: w) ++ x) ds)) with (@Ok (bool * lst) (false, s)). cbn [bind].
  change (lexOp "-" (Lst c (("-"%char :: a :: w) ++ x) ds)) with (prefix_or "->" tok_op_impl tok_op_negate s).
  unfold prefix_or, consumePrefix, peekPrefix, s. cbn [rest].
  replace (starts_with (b "->") ("-"%char :: (a :: w) ++ x)) with false; [reflexivity|].
  symmetry. apply (sw_ne ">"%char [] a (w ++ x)). intros ->. cbn in W. discriminate.
Qed.

(** ** The parser *)

(** the tokens [bf] are lexed from [l], leaving [l'] *)
Inductive look (m : pmode) : lst -> list token -> lst -> Prop :=
| look_nil l : look m l [] l
| look_cons l t l1 ts l2 : lex_mode m l = Ok (t, l1) -> look m l1 ts l2 -> look m l (t :: ts) l2.

Definition mode_of (ms : list pmode) : pmode := hd PS_Expr ms.

(** the parser has [r] to read, [n] tokens of it at most in its buffer; its other fields are as given *)
Definition St (ms : list pmode) (sy : list tkind) (ds : list diag) (r : bytes) (n : nat) (s : pst) : Prop :=
  pmodes s = ms /\ ms <> [] /\ psync s = sy /\ List.length (pbuf s) <= n /\
  exists c, look (mode_of ms) (Lst c r ds) (pbuf s) (plex s).
Definition begun (s : pst) : Prop := plast s <> None.

Definition ends {A} (m : P A) (s : pst) (Q : A -> pst -> Prop) : Prop :=
  exists a s', m s = Ok (a, s') /\ Q a s'.

Lemma ends_ret {A} (a : A) s (Q : A -> pst -> Prop) : Q a s -> ends (ret a) s Q.
Proof. intros H. exists a, s. split; [reflexivity|exact H]. Qed.
Lemma ends_bind {A B} (m : P A) (k : A -> P B) s Q : ends m s (fun a s' => ends (k a) s' Q) -> ends (pbind m k) s Q.
Proof.
  intros (a & s' & E & bb & s2 & E2 & H). exists bb, s2. split; [|exact H]. unfold pbind. now rewrite E.
Qed.
Lemma ends_mono {A} (m : P A) s (Q Q' : A -> pst -> Prop) : ends m s Q -> (forall a s', Q a s' -> Q' a s') -> ends m s Q'.
Proof. intros (a & s' & E & H) I. exists a, s'. auto. Qed.

Lemma ends_fresh ms sy ds r n s (Q : nat -> pst -> Prop) : St ms sy ds r n s ->
  (forall i s', St ms sy ds r n s' -> plast s' = plast s -> Q i s') -> ends fresh s Q.
Proof.
  intros S H. eexists _, _. split; [reflexivity|]. apply H; [|reflexivity]. exact S.
Qed.

Lemma ends_lastR s (Q : cursor -> pst -> Prop) : begun s -> (forall c, Q c s) -> ends lastR s Q.
Proof.
  intros B H. unfold begun in B. unfold ends, lastR. destruct (plast s) as [t|]; [|congruence]. eauto.
Qed.
Lemma ends_assertLast s (Q : unit -> pst -> Prop) : begun s -> Q tt s -> ends assertLast s Q.
Proof.
  intros B H. unfold assertLast. apply ends_bind. apply ends_lastR; [exact B|]. intros c. now apply ends_ret.
Qed.
Lemma ends_toLast from s (Q : range -> pst -> Prop) : begun s -> (forall r, Q r s) -> ends (toLast from) s Q.
Proof.
  intros B H. unfold toLast. apply ends_bind. apply ends_lastR; [exact B|]. intros c. now apply ends_ret.
Qed.
Lemma ends_mkMisc r0 ms sy ds r n s (Q : node -> pst -> Prop) : St ms sy ds r n s ->
  (forall nd s', St ms sy ds r n s' -> plast s' = plast s -> Q nd s') -> ends (mkMisc r0) s Q.
Proof.
  intros S H. unfold mkMisc. apply ends_bind. eapply ends_fresh; [exact S|]. intros i s' S' L. apply ends_ret. now apply H.
Qed.

Lemma St_more ms sy ds r n n' s : St ms sy ds r n s -> n <= n' -> St ms sy ds r n' s.
Proof. intros (A & B & C & D & E) L. repeat split; auto. lia. Qed.

Lemma look_snoc m l bf l1 t l2 : look m l bf l1 -> lex_mode m l1 = Ok (t, l2) -> look m l (bf ++ [t]) l2.
Proof.
  induction 1; intros E; cbn; [econstructor; [exact E|constructor]|]. econstructor; [eassumption|auto].
Qed.

(** filling the buffer up to the tokens of a stream *)
Lemma ends_fill ms sy ds n : forall r s, St ms sy ds r n s -> forall ts, stream (mode_of ms) r ts -> forall m,
  List.length (pbuf s) + m <= List.length ts ->
  ends (fill m) s (fun _ s' => St ms sy ds r (Nat.max n (List.length (pbuf s) + m)) s' /\ plast s' = plast s /\
                      List.length (pbuf s') = List.length (pbuf s) + m).
Proof.
  intros r s S ts T m. revert s n S. induction m as [|m IH]; intros s n S L.
  - apply ends_ret. split; [|split; [reflexivity|lia]]. eapply St_more; [exact S|lia].
  - destruct S as (A & B & C & D & c & E).
    assert (X : exists t l2, lex_mode (mode_of ms) (plex s) = Ok (t, l2)).
    { clear IH A B C D.
      assert (L' : List.length (pbuf s) < List.length ts) by lia. clear L.
      revert E L'. generalize (pbuf s) (plex s). intros bf l E. revert bf l c E.
      induction T as [r|r k v r' ts' LX T IT]; intros bf l c E L'; [cbn in L'; lia|].
      inversion E; subst; clear E.
      - destruct (LX c ds) as (t & c' & E1 & _). eauto.
      - destruct (LX c ds) as (t' & c' & E1 & _). rewrite E1 in H. injection H as <- <-.
        apply (IT _ _ _ H0). cbn in L'. lia. }
    destruct X as (t & l2 & X).
    pose (s1 := set_buf (pbuf s ++ [t]) (set_lex l2 s)).
    assert (LB : List.length (pbuf s1) = List.length (pbuf s) + 1).
    { unfold s1. cbn. rewrite app_length. reflexivity. }
    destruct (IH s1 (Nat.max n (List.length (pbuf s) + 1))) as (u & s' & E2 & S2 & P2 & L2).
    + repeat split; auto; [rewrite LB; lia|]. exists c. cbn. eapply look_snoc; eassumption.
    + rewrite LB. lia.
    + exists u, s'. split.
      * cbn [fill]. rewrite A. destruct ms as [|m0 ms]; [congruence|]. cbn [mode_of hd] in X. rewrite X. exact E2.
      * split; [|split; [exact P2|lia]]. eapply St_more; [exact S2|]. lia.
Qed.

Lemma stream_nth m r ts : stream m r ts -> forall c ds bf l, look m (Lst c r ds) bf l -> forall n t k v,
  nth_error bf n = Some t -> nth_error ts n = Some (k, v) -> tk t = k /\ tview t = v.
Proof.
  induction 1 as [r|r k0 v0 r' ts LX T IH]; intros c ds bf l L n t k v B1 B2; [destruct n; discriminate|].
  inversion L; subst; [destruct n; discriminate|].
  destruct (LX c ds) as (t' & c' & E1 & K & V). rewrite E1 in H. injection H as <- <-.
  destruct n; cbn in B1, B2; [|eapply IH; eassumption].
  injection B1 as <-. injection B2 as <- <-. split; assumption.
Qed.

Lemma ends_peek n ms sy ds r j s ts k v (Q : token -> pst -> Prop) : St ms sy ds r j s -> stream (mode_of ms) r ts ->
  List.length ts = S n -> nth_error ts n = Some (k, v) ->
  (forall t s', tk t = k -> tview t = v -> St ms sy ds r (Nat.max j (S n)) s' -> plast s' = plast s -> 0 < List.length (pbuf s') -> Q t s') ->
  ends (peek n) s Q.
Proof.
  intros S T L N H. unfold ends, peek.
  destruct (Nat.le_gt_cases (Datatypes.S n) (List.length (pbuf s))) as [G|G].
  - replace (Datatypes.S n - List.length (pbuf s)) with 0 by lia. cbn [fill ret].
    destruct (nth_error (pbuf s) n) as [t|] eqn:E.
    + exists t, s. split; [reflexivity|].
      pose proof S as (A & B & C & D & c & LK).
      destruct (stream_nth _ _ _ T _ _ _ _ LK _ _ _ _ E N) as [K V].
      apply H; auto; [|lia]. eapply St_more; [exact S|lia].
    + apply nth_error_None in E. lia.
  - destruct (ends_fill ms sy ds j r s S ts T (Datatypes.S n - List.length (pbuf s))) as (u & s' & E & S2 & P2 & L2); [lia|].
    rewrite E. destruct (nth_error (pbuf s') n) as [t|] eqn:E2; [|apply nth_error_None in E2; lia].
    exists t, s'. split; [reflexivity|].
    pose proof S2 as (A & B & C & D & c & LK).
    destruct (stream_nth _ _ _ T _ _ _ _ LK _ _ _ _ E2 N) as [K V].
    apply H; auto; [|lia]. eapply St_more; [exact S2|]. lia.
Qed.

Lemma ends_peek0 ms sy ds r j s k v r' (Q : token -> pst -> Prop) : St ms sy ds r j s -> lexes (mode_of ms) r k v r' ->
  (forall t s', tk t = k -> tview t = v -> St ms sy ds r (Nat.max j 1) s' -> plast s' = plast s -> 0 < List.length (pbuf s') -> Q t s') ->
  ends (peek 0) s Q.
Proof.
  intros S L H. eapply (ends_peek 0 ms sy ds r j s [(k, v)]); [exact S| |reflexivity|reflexivity|exact H].
  econstructor; [exact L|constructor].
Qed.

Lemma ends_consume ms sy ds r j s k v r' (Q : unit -> pst -> Prop) : St ms sy ds r j s -> lexes (mode_of ms) r k v r' ->
  (forall s', St ms sy ds r' (pred j) s' -> begun s' -> Q tt s') -> ends consume s Q.
Proof.
  intros S L H.
  assert (G : forall s1, St ms sy ds r (Nat.max j 1) s1 -> 0 < List.length (pbuf s1) ->
    List.length (pbuf s1) <= j \/ List.length (pbuf s1) = 1 -> ends (do! popBuf in ret tt) s1 Q).
  { intros s1 (A & B & C & D & c & LK) P1 J. destruct (pbuf s1) as [|t bf] eqn:E; [cbn in P1; lia|].
    unfold ends, pbind, popBuf. rewrite E. eexists _, _. split; [reflexivity|]. apply H.
    - inversion LK; subst. destruct (L c ds) as (t' & c' & E1 & _). match goal with X : lex_mode _ _ = Ok _ |- _ => rewrite E1 in X; injection X as <- <- end.
      repeat split; auto; [cbn; cbn in J; lia|]. exists c'. assumption.
    - unfold begun. cbn. discriminate. }
  unfold ends, consume. destruct (pbuf s) as [|t bf] eqn:E.
  - fold (@ends unit). apply ends_bind.
    assert (W : ends (peek 0) s (fun _ s1 => St ms sy ds r (Nat.max j 1) s1 /\ List.length (pbuf s1) = 1)).
    { unfold ends, peek. rewrite E. cbn [List.length Nat.sub].
      destruct (ends_fill ms sy ds j r s S [(k, v)] (stream_cons _ _ _ _ _ _ L (stream_nil _ _)) 1) as (u & s' & E2 & S2 & P2 & L2).
      { rewrite E. cbn. lia. }
      rewrite E2. rewrite E in L2. cbn in L2. destruct (pbuf s') as [|t' bf'] eqn:E3; [cbn in L2; lia|].
      cbn [nth_error]. exists t', s'. split; [reflexivity|]. split; [|rewrite E3; exact L2].
      eapply St_more; [exact S2|]. rewrite E. cbn. lia. }
    eapply ends_mono; [exact W|]. intros t s1 [S1 L1]. apply G; [exact S1|lia|right; exact L1].
  - apply G; [eapply St_more; [exact S|lia]|rewrite E; cbn; lia|left]. destruct S as (_ & _ & _ & D & _). rewrite E in D. now rewrite E.
Qed.

Lemma kremove_hd k sy : kremove k (k :: sy) = sy.
Proof. cbn [kremove]. now rewrite (internal_tkind_dec_lb k k eq_refl). Qed.

Lemma ends_withSync {A} k (m : P A) ms sy ds r j s (Q : A -> pst -> Prop) : St ms sy ds r j s ->
  (forall s1, St ms (k :: sy) ds r j s1 -> plast s1 = plast s ->
     ends m s1 (fun a s2 => exists r' j', St ms (k :: sy) ds r' j' s2 /\
       forall s3, St ms sy ds r' j' s3 -> plast s3 = plast s2 -> Q a s3)) ->
  ends (withSync k m) s Q.
Proof.
  intros S H. pose (s1 := set_sync (k :: psync s) s).
  destruct (H s1) as (a & s2 & E & r' & j' & S2 & H2); [|reflexivity|].
  - destruct S as (A0 & B & C & D & E). unfold s1. repeat split; auto. cbn. now rewrite C.
  - unfold ends, withSync. fold s1. rewrite E. eexists _, _. split; [reflexivity|]. apply H2; [|reflexivity].
    destruct S2 as (A2 & B2 & C2 & D2 & E2). repeat split; auto. cbn. rewrite C2. apply kremove_hd.
Qed.

Lemma St_buf0 ms sy ds r s : St ms sy ds r 0 s -> pbuf s = [] /\ exists c, plex s = Lst c r ds.
Proof.
  intros (A & B & C & D & c & E). destruct (pbuf s); [|cbn in D; lia]. split; [reflexivity|]. inversion E; subst. eauto.
Qed.

Lemma ends_withState {A} src m (body : P A) ms sy ds r s (Q : A -> pst -> Prop) : St ms sy ds r 0 s ->
  (forall s1, St (m :: ms) sy ds r 0 s1 -> plast s1 = plast s ->
     ends body s1 (fun a s2 => exists r', St (m :: ms) sy ds r' 0 s2 /\
       forall s3, St ms sy ds r' 0 s3 -> plast s3 = plast s2 -> Q a s3)) ->
  ends (withState src m body) s Q.
Proof.
  intros S H. destruct (St_buf0 _ _ _ _ _ S) as [B0 [c C0]].
  unfold withState. apply ends_bind. unfold pushState. apply ends_bind.
  exists tt, s. split; [unfold resetLookAheadBuf; now rewrite B0|].
  eexists _, _. split; [reflexivity|]. apply ends_bind.
  pose (s1 := set_modes (m :: pmodes s) s). fold s1.
  destruct (H s1) as (a & s2 & E & r' & S2 & H2); [|reflexivity|].
  { destruct S as (A1 & B1 & C1 & D1 & E1). unfold s1. repeat split; auto; [cbn; now rewrite A1|discriminate|].
    exists c. cbn. rewrite B0, C0. constructor. }
  exists a, s2. split; [exact E|]. apply ends_bind. unfold popState. apply ends_bind.
  destruct (St_buf0 _ _ _ _ _ S2) as [B2 [c2 C2]].
  exists tt, s2. split; [unfold resetLookAheadBuf; now rewrite B2|].
  pose proof S2 as (A2 & _ & Y2 & _). unfold ends. rewrite A2. eexists _, _. split; [reflexivity|].
  apply ends_ret. apply H2; [|reflexivity]. destruct S as (_ & N & _).
  repeat split; auto; [cbn; now rewrite B2|]. exists c2. cbn. rewrite B2, C2. constructor.
Qed.

Lemma ends_expect src k ms sy ds r j s v r' (Q : option token -> pst -> Prop) : St ms sy ds r j s -> lexes (mode_of ms) r k v r' ->
  (forall t s', tk t = k -> tview t = v -> St ms sy ds r (Nat.max j 1) s' -> plast s' = plast s -> Q (Some t) s') ->
  ends (expect src k) s Q.
Proof.
  intros S L H. unfold expect. eapply ends_withSync; [exact S|]. intros s1 S1 P1. apply ends_bind.
  eapply ends_peek0; [exact S1|exact L|]. intros t s2 K V S2 P2 _.
  replace (tkind_beq (tk t) k) with true by (rewrite K; symmetry; now apply internal_tkind_dec_lb).
  apply ends_ret. exists r, (Nat.max j 1). split; [exact S2|]. intros s3 S3 P3. apply H; auto. congruence.
Qed.
