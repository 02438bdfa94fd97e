(** Running the parser forward on a known sequence of tokens. *)
From Verif Require Import Base Diag LexModel AstModel PSupModel SemaModel ParseModel GramSpec AccSpec.
From Coq Require Import Lia.

Definition kv (t : token) : tkind * bytes := (tk t, tview t).

(** [m] runs out of fuel or gives what [Q] says *)
Definition fw {A} (m : P A) (s : pst) (Q : A -> pst -> Prop) : Prop :=
  match m s with Ok (a, s') => Q a s' | Crash _ => False | OutOfFuel => True end.
Lemma fw_bind {A B} (m : P A) (k : A -> P B) s Q : fw m s (fun a s' => fw (k a) s' Q) -> fw (pbind m k) s Q.
Proof. unfold fw, pbind. destruct (m s) as [[a s']| |]; auto. Qed.
Lemma fw_ret {A} (a : A) s (Q : A -> pst -> Prop) : Q a s -> fw (ret a) s Q.
Proof. intros H. exact H. Qed.
Lemma fw_mono {A} (m : P A) s (Q Q' : A -> pst -> Prop) : fw m s Q -> (forall a s', Q a s' -> Q' a s') -> fw m s Q'.
Proof. unfold fw. destruct (m s) as [[a s']| |]; auto. Qed.

(** the lexer at [l] reads [ts], up to the end of the text *)
Inductive chain : lst -> list token -> Prop :=
| chain_eof l t l' : lex l = Ok (t, l') -> tk t = tok_eof -> diags l' = [] -> chain l [t]
| chain_cons l t l' ts : lex l = Ok (t, l') -> tk t <> tok_eof -> diags l' = [] -> chain l' ts -> chain l (t :: ts).

(** the parser is before the tokens [l] *)
Definition at_toks (s : pst) (l : list (tkind * bytes)) : Prop :=
  exists ts', l = map kv (pbuf s ++ ts') /\ (ts' = [] \/ chain (plex s) ts') /\ pmodes s = [PS_Expr] /\ diags (plex s) = [].
(** ... has consumed something ([p]), and synchronises on [y] *)
Definition At (p : bool) (y : list tkind) (s : pst) (l : list (tkind * bytes)) : Prop :=
  at_toks s l /\ (p = true -> plast s <> None) /\ psync s = y.

Lemma At_weaken p y s l : At true y s l -> At p y s l.
Proof. intros (A & B & C). split; [exact A|]. split; auto. Qed.

Lemma fill_at n : forall p y s l, At p y s l -> n + List.length (pbuf s) <= List.length l ->
  exists s', fill n s = Ok (tt, s') /\ At p y s' l /\ List.length (pbuf s') = n + List.length (pbuf s) /\ pnid s' = pnid s.
Proof.
  induction n as [|n IH]; intros p y s l A L; cbn [fill].
  - exists s. split; [reflexivity|]. split; [exact A|]. split; reflexivity.
  - destruct A as ((ts' & E & C & M & D) & B & Y). rewrite M. rewrite E, map_length, app_length in L.
    destruct C as [->|C]; [cbn in L; lia|].
    assert (K : exists t ts l', ts' = t :: ts /\ lex (plex s) = Ok (t, l') /\ diags l' = [] /\ (ts = [] \/ chain l' ts)).
    { inversion C; subst; eauto 10. }
    destruct K as (t & ts & l' & -> & X & D' & C'). cbn [lex_mode]. rewrite X.
    destruct (IH p y (set_buf (pbuf s ++ [t]) (set_lex l' s)) l) as (s' & F & A' & L' & N').
    + split; [|split]; cbn; auto. exists ts. cbn. rewrite <- app_assoc. repeat split; auto.
    + rewrite E, map_length, !app_length. cbn in *. rewrite app_length. cbn. lia.
    + exists s'. split; [exact F|]. split; [exact A'|]. split; [rewrite L'; cbn; rewrite app_length; cbn; lia|]. rewrite N'. reflexivity.
Qed.
Lemma fw_peek n p y s l k v (Q : token -> pst -> Prop) : At p y s l -> nth_error l n = Some (k, v) ->
  (forall t s', tk t = k -> tview t = v -> At p y s' l -> Q t s') -> fw (peek n) s Q.
Proof.
  intros A E H. assert (n < List.length l) by (apply nth_error_Some; rewrite E; discriminate).
  unfold fw, peek.
  assert (X : exists s', fill (S n - List.length (pbuf s)) s = Ok (tt, s') /\ At p y s' l /\ n < List.length (pbuf s')).
  { destruct (Nat.le_gt_cases (S n) (List.length (pbuf s))).
    - replace (S n - List.length (pbuf s)) with 0 by lia. exists s. split; [reflexivity|]. split; [exact A|lia].
    - destruct (fill_at (S n - List.length (pbuf s)) p y s l A) as (s' & F & A' & L' & _); [lia|]. exists s'. split; [exact F|]. split; [exact A'|lia]. }
  destruct X as (s' & -> & A' & L). destruct (nth_error (pbuf s') n) as [t|] eqn:E'.
  - apply H; auto; destruct A' as ((ts' & -> & _) & _); rewrite map_app, nth_error_app1 in E by (rewrite map_length; lia);
      rewrite nth_error_map, E' in E; injection E as <- <-; reflexivity.
  - apply nth_error_None in E'. lia.
Qed.
Lemma fw_peekk n p y s l k v (Q : tkind -> pst -> Prop) : At p y s l -> nth_error l n = Some (k, v) ->
  (forall s', At p y s' l -> Q k s') -> fw (peekk n) s Q.
Proof.
  intros A E H. unfold peekk. apply fw_bind. eapply fw_peek; [eassumption..|]. intros t s' <- _ A'. apply fw_ret. auto.
Qed.
Lemma fw_lCur p y s l x (Q : cursor -> pst -> Prop) : At p y s (x :: l) -> (forall c s', At p y s' (x :: l) -> Q c s') -> fw lCur s Q.
Proof.
  intros A H. unfold lCur. apply fw_bind. destruct x as [k v]. eapply (fw_peek 0); [eassumption|reflexivity|]. intros t s' _ _ A'. apply fw_ret. auto.
Qed.
Lemma fw_popBuf p y s l x (Q : unit -> pst -> Prop) : At p y s (x :: l) -> pbuf s <> [] -> (forall s', At true y s' l -> Q tt s') -> fw (do! popBuf in ret tt) s Q.
Proof.
  intros ((ts' & E & C & M & D) & B & Y) N H. unfold fw, popBuf, pbind, ret. destruct (pbuf s) as [|t bf] eqn:Eb; [contradiction|].
  apply H. split; [|split]; cbn; auto; [|discriminate]. exists ts'. cbn in E. injection E as _ ->. cbn. auto.
Qed.
Lemma fw_consume p y s l x (Q : unit -> pst -> Prop) : At p y s (x :: l) -> (forall s', At true y s' l -> Q tt s') -> fw PSupModel.consume s Q.
Proof.
  intros A H. unfold PSupModel.consume. unfold fw at 1. cbv beta.
  assert (X : fw (match pbuf s with [] => (do! peek 0 in do! popBuf in ret tt) | _ => (do! popBuf in ret tt) end) s Q).
  { destruct (pbuf s) as [|t bf] eqn:Eb.
    - apply fw_bind. destruct x as [k v]. unfold fw, peek. rewrite Eb.
      destruct (fill_at (1 - List.length (@nil token)) p y s _ A) as (s' & F & A' & L' & _); [cbn; rewrite Eb; cbn; lia|]. rewrite F.
      destruct (pbuf s') as [|t bf'] eqn:Eb'; [cbn in L'; rewrite Eb in L'; cbn in L'; lia|]. cbn [nth_error].
      eapply fw_popBuf; [exact A'|congruence|exact H].
    - eapply fw_popBuf; [exact A|congruence|exact H]. }
  unfold fw in X. destruct (pbuf s); exact X.
Qed.
Lemma fw_lastR y s l (Q : cursor -> pst -> Prop) : At true y s l -> (forall c, Q c s) -> fw lastR s Q.
Proof. intros (_ & B & _) H. unfold fw, lastR. destruct (plast s) as [t|]; [apply H|]. now apply B. Qed.
Lemma fw_assertLast y s l (Q : unit -> pst -> Prop) : At true y s l -> Q tt s -> fw assertLast s Q.
Proof. intros A H. unfold assertLast. apply fw_bind. eapply fw_lastR; [exact A|]. intros c. apply fw_ret. exact H. Qed.
Lemma fw_toLast y s l c (Q : range -> pst -> Prop) : At true y s l -> (forall r, Q r s) -> fw (toLast c) s Q.
Proof. intros A H. unfold toLast. apply fw_bind. eapply fw_lastR; [exact A|]. intros c'. apply fw_ret. apply H. Qed.
Lemma fw_fresh p y s l (Q : nat -> pst -> Prop) : At p y s l -> (forall i s', At p y s' l -> Q i s') -> fw fresh s Q.
Proof. intros A H. unfold fw, fresh. apply H. destruct A as ((ts' & E & C & M & D) & B & Y). split; [|split]; cbn; auto. exists ts'. auto. Qed.
Lemma fw_mkMisc p y s l r (Q : node -> pst -> Prop) : At p y s l -> (forall n s', At p y s' l -> Q n s') -> fw (mkMisc r) s Q.
Proof. intros A H. unfold mkMisc. apply fw_bind. eapply fw_fresh; [exact A|]. intros i s' A'. apply fw_ret. auto. Qed.
Lemma fw_passert c w s (Q : unit -> pst -> Prop) : c = true -> Q tt s -> fw (passert c w) s Q.
Proof. intros -> H. exact H. Qed.
Lemma kremove_cons k y : kremove k (k :: y) = y.
Proof. cbn. now rewrite (internal_tkind_dec_lb _ _ eq_refl). Qed.
Lemma fw_withSync {A} k (m : P A) p y s l (Q : A -> pst -> Prop) : At p y s l ->
  (forall s', At p (k :: y) s' l -> fw m s' (fun a s2 => psync s2 = k :: y /\ forall s3, (forall q l', At q (k :: y) s2 l' -> At q y s3 l') -> Q a s3)) ->
  fw (withSync k m) s Q.
Proof.
  intros ((ts' & E & C & M & D) & B & Y) H. unfold fw, withSync. specialize (H (set_sync (k :: psync s) s)). unfold fw in H.
  destruct (m (set_sync (k :: psync s) s)) as [[a s2]| |] eqn:Em.
  - destruct H as [H1 H2]. { split; [|split]; cbn; auto; [|congruence]. exists ts'. auto. }
    apply H2. intros q l' ((ts2 & E2 & C2 & M2 & D2) & B2 & Y2). split; [|split]; cbn; auto.
    + exists ts2. auto.
    + rewrite Y2. apply kremove_cons.
  - apply H. split; [|split]; cbn; auto; [|congruence]. exists ts'. auto.
  - exact I.
Qed.
Lemma kbeq k : tkind_beq k k = true.
Proof. exact (internal_tkind_dec_lb _ _ eq_refl). Qed.
Lemma kbeq_false k k' : k <> k' -> tkind_beq k k' = false.
Proof. intros H. destruct (tkind_beq k k') eqn:E; auto. apply internal_tkind_dec_bl in E. contradiction. Qed.
Lemma fw_expect src p y s l k v (Q : option token -> pst -> Prop) : At p y s ((k, v) :: l) ->
  (forall t s', tk t = k -> tview t = v -> At p y s' ((k, v) :: l) -> Q (Some t) s') -> fw (expect src k) s Q.
Proof.
  intros A H. unfold expect. eapply fw_withSync; [exact A|]. intros s' A'. apply fw_bind.
  eapply (fw_peek 0); [exact A'|reflexivity|]. intros t s2 T V A2. rewrite T, kbeq. apply fw_ret. split; [apply A2|].
  intros s3 K. apply H; auto.
Qed.
