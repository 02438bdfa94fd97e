(** For C68 and C72: reasoning about the runs of the parser that report no error, or nothing at all. *)
From Verif Require Import Base Diag LexModel LexSpec LexProofs AstModel PSupModel SemaModel ParseModel ParseSpec
  ParseInv LexLongSpec LexLongProofs GramSpec.

(** whether the runs are those that report nothing at all *)
Class Quiet := silent : bool.

Section Gram.
Context {Qt : Quiet}.
Variable src : bytes.
Notation gap := (gap src). Notation tokok := (tokok src). Notation good := (good src). Notation bufok := (bufok src).

(** the part of the parser state that matters *)
Record core_ := Core { ccur : cursor; crest : bytes; cbuf : list token; clast : option token; cmodes : list pmode }.
Definition core (s : pst) : core_ := Core (cur (plex s)) (rest (plex s)) (pbuf s) (plast s) (pmodes s).
Definition cmode (c : core_) : pmode := hd PS_Expr (cmodes c).
Definition clastp (c : core_) : nat := match clast c with Some t => off (rcur (trange t)) | None => 0 end.
Definition cbase (c : core_) : nat := match cbuf c with t :: _ => off (lcur (trange t)) | [] => off (ccur c) end.
Record J (c : core_) : Prop := {
  j_good : exists pre, src = pre ++ crest c /\ cursor_after pre (ccur c);
  j_modes : cmodes c <> [];
  j_buf : bufok (cmode c) (clastp c) (cbuf c) (ccur c);
  j_last : forall t, clast c = Some t -> exists m, tokok m t;
  j_long : Forall (fun t => longest (cmode c) (tk t) (tview t) (skipn (off (rcur (trange t))) src)) (cbuf c) }.
Definition tight (c : core_) : Prop := cbase c = clastp c.

(** errors *)
Definition errb (d : diag) : bool :=
  match severity_of (d_kind d) with DS_Fatal | DS_Error => true | _ => silent end.
Definition nerr (s : pst) : nat := List.length (filter errb (diags (plex s))).

Definition mono {A} (m : P A) : Prop := forall s a s', m s = Ok (a, s') -> nerr s <= nerr s'.
Definition cl {A} (m : P A) (c : core_) (Q : A -> core_ -> Prop) : Prop :=
  forall s a s', core s = c -> m s = Ok (a, s') -> nerr s' = nerr s -> (silent = true -> diags (plex s) = []) ->
    Q a (core s').

Lemma cl_mono {A} (m : P A) c (Q Q' : A -> core_ -> Prop) :
  cl m c Q -> (forall a c', Q a c' -> Q' a c') -> cl m c Q'.
Proof. unfold cl. eauto. Qed.

(** * Monotonicity *)
Lemma mono_ret {A} (a : A) : mono (ret a).
Proof. intros s x s' [= _ <-]. lia. Qed.
Lemma mono_bind {A B} (m : P A) (k : A -> P B) : mono m -> (forall a, mono (k a)) -> mono (pbind m k).
Proof.
  intros H1 H2 s x s' E. unfold pbind in E. destruct (m s) as [[a s1]|w|] eqn:E1; try discriminate.
  apply H1 in E1. apply H2 in E. lia.
Qed.
Lemma mono_crash {A} w : mono (@crash A w).
Proof. intros s a s' E. discriminate. Qed.
Lemma mono_lift {A} (m : res A) : mono (lift m).
Proof. intros s a s' E. unfold lift in E. destruct m; try discriminate. injection E as _ <-. lia. Qed.
Lemma mono_passert c w : mono (passert c w).
Proof. destruct c; [apply mono_ret|apply mono_crash]. Qed.
Lemma mono_fresh : mono fresh.
Proof. intros s a s' [= _ <-]. unfold nerr. simpl. lia. Qed.
Lemma nerr_emit d s : nerr (PS (push_diag d (plex s)) (pbuf s) (plast s) (pmodes s) (psync s) (pnid s)) =
  (if errb d then 1 else 0) + nerr s.
Proof. unfold nerr. simpl. destruct (errb d); reflexivity. Qed.
Lemma mono_emit d : mono (emit d).
Proof. intros s a s' [= _ <-]. rewrite nerr_emit. lia. Qed.
Lemma mono_upd f : (forall d, d_kind (f d) = d_kind d) -> mono (upd_last f).
Proof.
  intros Hf s a s' E. unfold upd_last in E. destruct (diags (plex s)) as [|d ds] eqn:Ed; try discriminate.
  injection E as _ <-. unfold nerr. simpl. rewrite Ed. simpl.
  replace (errb (f d)) with (errb d) by (unfold errb; now rewrite Hf). destruct (errb d); simpl; lia.
Qed.
Lemma mono_noteMatch r k : mono (noteMatch r k).
Proof. apply mono_upd. reflexivity. Qed.
Lemma mono_fix1 msg e : mono (fix1 msg e).
Proof. apply mono_bind; [apply mono_lift|intros; apply mono_ret]. Qed.
Lemma mono_addFix msg e : mono (addFix msg e).
Proof. apply mono_bind; [apply mono_fix1|intros]. apply mono_upd. reflexivity. Qed.
Lemma mono_withSync {A} k (m : P A) : mono m -> mono (withSync k m).
Proof.
  intros H s a s' E. unfold withSync in E. destruct (m _) as [[x s1]|w|] eqn:E1; try discriminate.
  injection E as _ <-. apply H in E1. exact E1.
Qed.
Lemma mono_lastR : mono lastR.
Proof. intros s a s' E. unfold lastR in E. destruct (plast s); try discriminate. injection E as _ <-. lia. Qed.
Lemma mono_assertLast : mono assertLast.
Proof. apply mono_bind; [apply mono_lastR|intros; apply mono_ret]. Qed.
Lemma mono_toLast c : mono (toLast c).
Proof. apply mono_bind; [apply mono_lastR|intros; apply mono_ret]. Qed.
Lemma mono_mkMisc r : mono (mkMisc r).
Proof. apply mono_bind; [apply mono_fresh|intros; apply mono_ret]. Qed.
Lemma lex_nerr m l t l' : lex_mode m l = Ok (t, l') ->
  List.length (filter errb (diags l)) <= List.length (filter errb (diags l')).
Proof.
  intros E. destruct (lex_mode_spec m l) as [[_ [why E2]]|[_ (w & k & v & l1 & l2 & E2 & M1 & M2 & _)]];
    rewrite E2 in E; [discriminate|]. injection E as _ <-.
  destruct M1 as (_ & _ & d1 & E4 & _). destruct M2 as (_ & _ & d2 & E3 & _). rewrite E3, E4.
  rewrite !filter_app, !app_length. lia.
Qed.
Lemma mono_fill n : mono (fill n).
Proof.
  induction n as [|n IH]; [apply mono_ret|]. intros s a s' E. cbn [fill] in E.
  destruct (pmodes s) as [|m ms]; [discriminate|].
  destruct (lex_mode m (plex s)) as [[t l]|w|] eqn:El; try discriminate.
  apply IH in E. apply lex_nerr in El. unfold nerr in *. simpl in E. lia.
Qed.
Lemma mono_peek n : mono (peek n).
Proof.
  intros s a s' E. unfold peek in E. destruct (fill _ s) as [[x s1]|w|] eqn:Ef; try discriminate.
  destruct (nth_error (pbuf s1) n); try discriminate. injection E as _ <-. now apply mono_fill in Ef.
Qed.
Lemma mono_peekk n : mono (peekk n).
Proof. apply mono_bind; [apply mono_peek|intros; apply mono_ret]. Qed.
Lemma mono_lCur : mono lCur.
Proof. apply mono_bind; [apply mono_peek|intros; apply mono_ret]. Qed.
Lemma mono_popBuf : mono popBuf.
Proof. intros s a s' E. unfold popBuf in E. destruct (pbuf s); try discriminate. injection E as _ <-. unfold nerr. simpl. lia. Qed.
Lemma mono_consume : mono consume.
Proof.
  intros s a s' E. unfold consume in E.
  assert (H : mono (do! popBuf in ret tt)) by (apply mono_bind; [apply mono_popBuf|intros; apply mono_ret]).
  destruct (pbuf s) eqn:Eb.
  - revert E. apply mono_bind; [apply mono_peek|intros; exact H].
  - now apply H in E.
Qed.
Lemma mono_unknown f c : mono (unknown_loop f c).
Proof.
  revert c. induction f as [|f IH]; intros c; [intros s a s' E; discriminate|].
  cbn [unknown_loop]. apply mono_bind; [apply mono_peek|]. intros t s a s' E.
  destruct (_ || _).
  - injection E as _ <-. lia.
  - revert E. apply mono_bind; [apply mono_consume|intros; apply IH].
Qed.
Lemma mono_consumeAsUnknown : mono (consumeAsUnknown src).
Proof.
  apply mono_bind; [apply mono_peek|intros]. apply mono_bind; [apply mono_unknown|intros].
  destruct a0; [apply mono_bind; [apply mono_lastR|intros]|]; apply mono_ret.
Qed.
Lemma mono_removeUnexpected : mono (removeUnexpected src).
Proof.
  apply mono_bind; [apply mono_consumeAsUnknown|intros]. destruct a as [r|]; [|apply mono_ret].
  apply mono_bind; [apply mono_fix1|intros]. apply mono_bind; [apply mono_emit|intros; apply mono_ret].
Qed.
Lemma mono_ins : mono (fun s => match plast s with Some l => Ok (rcur (trange l), s) | None => lCur s end).
Proof.
  intros s a s' E. destruct (plast s); [injection E as _ <-; lia|now apply mono_lCur in E].
Qed.
Lemma mono_expect k : mono (expect src k).
Proof.
  apply mono_withSync. apply mono_bind; [apply mono_peek|intros]. destruct (tkind_beq _ _); [apply mono_ret|].
  apply mono_bind; [apply mono_removeUnexpected|intros]. apply mono_bind.
  { destruct a0; [apply mono_bind; [apply mono_peek|intros]|]; apply mono_ret. }
  intros [t'|]; [apply mono_ret|]. apply mono_bind; [apply mono_ins|intros].
  apply mono_bind; [apply mono_fix1|intros]. apply mono_bind; [apply mono_emit|intros; apply mono_ret].
Qed.
Lemma mono_diagNull w : mono (diagNullExpr w).
Proof. apply mono_bind; [apply mono_lastR|intros]. apply mono_bind; [apply mono_fix1|intros]. apply mono_emit. Qed.
Lemma mono_orNull e w : mono (orNull e w).
Proof. destruct e; [apply mono_ret|apply mono_diagNull]. Qed.
Lemma mono_reset : mono (resetLookAheadBuf src).
Proof.
  intros s a s' E. unfold resetLookAheadBuf in E. destruct (pbuf s) as [|t bf]; [injection E as _ <-; lia|].
  unfold setCur in E. destruct (Nat.leb _ _); try discriminate. injection E as _ <-. unfold nerr. simpl. lia.
Qed.
Lemma mono_withState {A} m (body : P A) : mono body -> mono (withState src m body).
Proof.
  intros H. apply mono_bind.
  - apply mono_bind; [apply mono_reset|]. intros _ s a s' [= _ <-]. unfold nerr. simpl. lia.
  - intros _. apply mono_bind; [exact H|intros x]. apply mono_bind; [|intros; apply mono_ret].
    apply mono_bind; [apply mono_reset|]. intros _ s a s' E. destruct (pmodes s); try discriminate.
    injection E as _ <-. unfold nerr. simpl. lia.
Qed.

(** * Quiet operations *)
Lemma quiet_nerr s : silent = true -> nerr s = List.length (diags (plex s)).
Proof.
  intros Hq. unfold nerr. f_equal. assert (H : forall d, errb d = true).
  { intros d. unfold errb. rewrite Hq. now destruct (severity_of _). }
  induction (diags (plex s)) as [|d l IH]; simpl; auto. now rewrite H, IH.
Qed.
Lemma still_quiet s s' : (silent = true -> diags (plex s) = []) -> nerr s' = nerr s -> silent = true -> diags (plex s') = [].
Proof.
  intros H E Hq. rewrite !quiet_nerr, (H Hq) in E by exact Hq. now destruct (diags (plex s')).
Qed.
Lemma cl_ret {A} (a : A) c (Q : A -> core_ -> Prop) : Q a c -> cl (ret a) c Q.
Proof. intros H s x s' E [= <- <-] _ _. now rewrite E. Qed.
Lemma cl_bind {A B} (m : P A) (k : A -> P B) c (Q : B -> core_ -> Prop) :
  mono m -> (forall a, mono (k a)) -> cl m c (fun a c1 => cl (k a) c1 Q) -> cl (pbind m k) c Q.
Proof.
  intros H1 H2 H s x s' Ec E En Hq. unfold pbind in E. destruct (m s) as [[a s1]|w|] eqn:E1; try discriminate.
  pose proof (H1 _ _ _ E1). pose proof (H2 _ _ _ _ E).
  refine (H s a s1 Ec E1 ltac:(lia) Hq s1 x s' eq_refl E ltac:(lia) _). apply (still_quiet s s1 Hq). lia.
Qed.
Lemma cl_crash {A} w c (Q : A -> core_ -> Prop) : cl (crash w) c Q.
Proof. intros s x s' _ E. discriminate. Qed.
Lemma cl_lift {A} (m : res A) c (Q : A -> core_ -> Prop) : (forall a, m = Ok a -> Q a c) -> cl (lift m) c Q.
Proof. intros H s x s' E E1 _ _. unfold lift in E1. destruct m; try discriminate. injection E1 as <- <-. rewrite E. auto. Qed.
Lemma cl_passert p w c (Q : unit -> core_ -> Prop) : (p = true -> Q tt c) -> cl (passert p w) c Q.
Proof. intros H. destruct p; [apply cl_ret; auto|apply cl_crash]. Qed.
Lemma cl_fresh c (Q : nat -> core_ -> Prop) : (forall i, Q i c) -> cl fresh c Q.
Proof. intros H s x s' E [= <- <-] _ _. subst c. apply H. Qed.
Lemma cl_emit d c (Q : unit -> core_ -> Prop) : (errb d = false -> Q tt c) -> cl (emit d) c Q.
Proof.
  intros H s x s' E [= <- <-] En _. rewrite nerr_emit in En. destruct (errb d); [lia|]. subst c. now apply H.
Qed.
Lemma cl_upd f c (Q : unit -> core_ -> Prop) : Q tt c -> cl (upd_last f) c Q.
Proof.
  intros H s x s' E E1 _ _. unfold upd_last in E1. destruct (diags (plex s)); try discriminate.
  injection E1 as <- <-. subst c. exact H.
Qed.
Lemma cl_noteMatch r k c (Q : unit -> core_ -> Prop) : Q tt c -> cl (noteMatch r k) c Q.
Proof. apply cl_upd. Qed.
Lemma cl_fix1 msg e c (Q : fix_ -> core_ -> Prop) : (forall f, Q f c) -> cl (fix1 msg e) c Q.
Proof.
  intros H. apply cl_bind; [apply mono_lift|intros; apply mono_ret|]. apply cl_lift. intros. apply cl_ret. apply H.
Qed.
Lemma cl_addFix msg e c (Q : unit -> core_ -> Prop) : Q tt c -> cl (addFix msg e) c Q.
Proof.
  intros H. apply cl_bind; [apply mono_fix1|intros; apply mono_upd; reflexivity|]. apply cl_fix1. intros f.
  now apply cl_upd.
Qed.
Lemma cl_withSync {A} k (m : P A) c (Q : A -> core_ -> Prop) : cl m c Q -> cl (withSync k m) c Q.
Proof.
  intros H s x s' E E1 En Hq. unfold withSync in E1. destruct (m _) as [[a s1]|w|] eqn:Em; try discriminate.
  injection E1 as <- <-. exact (H (set_sync (k :: psync s) s) a s1 E Em En Hq).
Qed.
Lemma cl_lastR c (Q : cursor -> core_ -> Prop) :
  (forall t, clast c = Some t -> Q (rcur (trange t)) c) -> cl lastR c Q.
Proof.
  intros H s x s' E E1 _ _. unfold lastR in E1. destruct (plast s) as [t|] eqn:El; try discriminate.
  injection E1 as <- <-. rewrite E. apply H. now rewrite <- E.
Qed.
Lemma cl_assertLast c (Q : unit -> core_ -> Prop) : Q tt c -> cl assertLast c Q.
Proof.
  intros H. apply cl_bind; [apply mono_lastR|intros; apply mono_ret|]. apply cl_lastR. intros. now apply cl_ret.
Qed.
Lemma cl_toLast l c (Q : range -> core_ -> Prop) : (forall r, Q r c) -> cl (toLast l) c Q.
Proof.
  intros H. apply cl_bind; [apply mono_lastR|intros; apply mono_ret|]. apply cl_lastR. intros. now apply cl_ret.
Qed.
Lemma cl_mkMisc r c (Q : node -> core_ -> Prop) : (forall i, Q (NMisc i r) c) -> cl (mkMisc r) c Q.
Proof.
  intros H. apply cl_bind; [apply mono_fresh|intros; apply mono_ret|]. apply cl_fresh. intros. now apply cl_ret.
Qed.
Lemma cl_diagNull w c (Q : unit -> core_ -> Prop) : cl (diagNullExpr w) c Q.
Proof.
  apply cl_bind; [apply mono_lastR|intros; apply mono_bind; [apply mono_fix1|intros; apply mono_emit]|].
  apply cl_lastR. intros t _. apply cl_bind; [apply mono_fix1|intros; apply mono_emit|].
  apply cl_fix1. intros f. apply cl_emit. discriminate.
Qed.
Lemma cl_orNull e w c (Q : unit -> core_ -> Prop) : (forall n, e = Some n -> Q tt c) -> cl (orNull e w) c Q.
Proof. intros H. destruct e; [apply cl_ret; eauto|apply cl_diagNull]. Qed.

(** * Tokens *)
(** a text at which the lexer reads a path *)
Definition path_start (r : bytes) : Prop :=
  forall l, rest l = r -> exists t l', lexPath l = Ok (t, l') /\ tk t = tok_path_fragment.
(** the front token *)
Inductive pk (c : core_) (t : token) : core_ -> Prop :=
| pk_buf bf : cbuf c = t :: bf -> pk c t c
| pk_lex cu r : cbuf c = [] -> (cmode c <> PS_Expr -> off (lcur (trange t)) = off (ccur c)) ->
    (cmode c = PS_Path -> path_start (crest c) -> tk t = tok_path_fragment) ->
    (silent = true -> exists l, lex_mode (cmode c) (Lst (ccur c) (crest c) []) = Ok (t, l)) ->
    pk c t (Core cu r [t] (clast c) (cmodes c)).

Lemma lex_gives m l t l' :
  good l -> lex_mode m l = Ok (t, l') ->
  good l' /\ tokok m t /\ gap (off (cur l)) (off (lcur (trange t))) /\ cur l' = rcur (trange t) /\
  (m <> PS_Expr -> lcur (trange t) = cur l).
Proof.
  intros G E. destruct (lex_mode_spec m l) as [[_ [why E2]]|[_ (w & k & v & l1 & l2 & E2 & M1 & M2 & He & Hn & _ & Hsp)]];
    rewrite E2 in E; [discriminate|]. injection E as <- <-.
  pose proof (good_mv _ _ _ _ G M1) as G1. pose proof (good_mv _ _ _ _ G1 M2) as G2.
  assert (Hend : m = PS_Expr -> k = tok_eof -> rest l2 = []).
  { intros -> ->. destruct (He eq_refl) as (_ & E1 & E3). destruct (rest l1) as [|x r] eqn:Er.
    - destruct M2 as (E & _). rewrite Er in E. symmetry in E. now apply app_eq_nil in E.
    - now destruct (E3 ltac:(discriminate)). }
  split; [exact G2|]. split; [|split; [|split; [reflexivity|]]].
  - split; [now apply token_faithful_mv|]. split; [exact Hsp|]. cbn [tk trange rcur]. intros Em Ee.
    destruct G2 as (p2 & E3 & (Ho & _)). rewrite (Hend Em Ee), app_nil_r in E3. now rewrite E3.
  - simpl. split.
    + destruct M1 as (_ & -> & _). rewrite advs_off. lia.
    + rewrite (slice_mv _ _ _ _ G M1), <- (good_rest _ _ G1).
      destruct m; try (destruct Hn as [-> ->]; [discriminate|]; constructor).
      now destruct (He eq_refl).
  - intros Hm. destruct (Hn Hm) as [-> _]. reflexivity.
Qed.

Lemma J_good s : J (core s) -> good (plex s).
Proof. intros [G _ _ _ _]. exact G. Qed.

(** looking [n] tokens ahead, over [pre] *)
Lemma cl_peek n pre bf c (Q : token -> core_ -> Prop) :
  J c -> cbuf c = pre ++ bf -> List.length pre = n -> Forall (fun x => la (tk x)) pre ->
  (forall t bf', bf = t :: bf' -> Q t c) ->
  (bf = [] -> forall t cu r, let c' := Core cu r (pre ++ [t]) (clast c) (cmodes c) in
     J c' -> (n = 0 -> pk c t c') -> Q t c') ->
  cl (peek n) c Q.
Proof.
  intros HJ E Hlen Hla H1 H2 s a s' Ec Ep En Hq. subst c. unfold peek in Ep. simpl in E.
  destruct bf as [|t bf].
  - rewrite app_nil_r in E. rewrite E in Ep. replace (S n - List.length pre) with 1 in Ep by lia.
    cbn [fill] in Ep. destruct (pmodes s) as [|m ms] eqn:Em; [now destruct (j_modes _ HJ)|].
    destruct (lex_mode m (plex s)) as [[t l]|w|] eqn:El; try discriminate.
    unfold ret in Ep. simpl in Ep. rewrite E in Ep. rewrite nth_error_app2, Hlen, Nat.sub_diag in Ep by lia.
    simpl in Ep. injection Ep as <- <-.
    destruct (lex_gives _ _ _ _ (J_good _ HJ) El) as (G & T & Gp & Ecu & Hm).
    assert (Hmode : cmode (core s) = m) by (unfold cmode, core; simpl; now rewrite Em).
    specialize (H2 eq_refl t (cur l) (rest l)).
    unfold core at 1. simpl. apply H2.
    + constructor.
      * exact G.
      * exact (j_modes _ HJ).
      * change (bufok (cmode (core s)) (clastp (core s)) (pre ++ [t]) (cur l)).
        rewrite Hmode. pose proof (j_buf _ HJ) as Hb. rewrite Hmode in Hb. simpl in Hb. rewrite E in Hb.
        eapply bufok_snoc; eauto.
      * exact (j_last _ HJ).
      * cbn [cbuf]. apply Forall_app. split.
        -- pose proof (j_long _ HJ) as Hl. cbn [core cbuf] in Hl. rewrite E in Hl. exact Hl.
        -- constructor; auto. apply longest_mode in El. change (cmode _) with (cmode (core s)). rewrite Hmode.
           rewrite <- Ecu, <- (good_rest src l G). exact El.
    + intros ->. destruct pre; [|discriminate]. apply pk_lex; [exact E| | |]; rewrite Hmode.
      * intros Hne. simpl. now rewrite (Hm Hne).
      * intros -> Hp. destruct (Hp (plex s) eq_refl) as (t1 & l1 & E1 & K1). cbn [lex_mode] in El. congruence.
      * intros Hk. specialize (Hq Hk). exists l. rewrite <- El. f_equal. unfold core. cbn.
        destruct (plex s) as [cu rs dg]. cbn in *. now rewrite Hq.
  - replace (S n - List.length (pbuf s)) with 0 in Ep by (rewrite E, app_length; cbn [List.length]; lia).
    cbn [fill] in Ep. unfold ret in Ep. rewrite E, nth_error_app2, Hlen, Nat.sub_diag in Ep by lia. simpl in Ep.
    injection Ep as <- <-. eapply H1. reflexivity.
Qed.

Lemma cl_peek0 c (Q : token -> core_ -> Prop) :
  J c -> (forall t c', pk c t c' -> J c' -> Q t c') -> cl (peek 0) c Q.
Proof.
  intros HJ H. apply (cl_peek 0 [] (cbuf c)); auto.
  intros t bf E. apply H; auto. econstructor; eauto.
Qed.
Lemma cl_peekk0 c (Q : tkind -> core_ -> Prop) :
  J c -> (forall t c', pk c t c' -> J c' -> Q (tk t) c') -> cl (peekk 0) c Q.
Proof.
  intros HJ H. apply cl_bind; [apply mono_peek|intros; apply mono_ret|]. apply cl_peek0; auto.
  intros. apply cl_ret. auto.
Qed.
Lemma cl_lCur c (Q : cursor -> core_ -> Prop) :
  J c -> (forall t c', pk c t c' -> J c' -> Q (lcur (trange t)) c') -> cl lCur c Q.
Proof.
  intros HJ H. apply cl_bind; [apply mono_peek|intros; apply mono_ret|]. apply cl_peek0; auto.
  intros. apply cl_ret. auto.
Qed.
Lemma pk_front c t c' : pk c t c' -> exists bf, cbuf c' = t :: bf.
Proof. intros [bf E|]; [exists bf; exact E|exists []; reflexivity]. Qed.

Definition pop (t : token) (c : core_) : core_ := Core (ccur c) (crest c) (tl (cbuf c)) (Some t) (cmodes c).
Lemma cl_consume t bf c (Q : unit -> core_ -> Prop) :
  cbuf c = t :: bf -> Q tt (pop t c) -> cl consume c Q.
Proof.
  intros E H s a s' Ec E1 _ _. subst c. simpl in E. unfold consume in E1. rewrite E in E1.
  unfold pbind, popBuf in E1. rewrite E in E1. injection E1 as <- <-. unfold pop, core in *. simpl in *.
  rewrite E in H. exact H.
Qed.

(** the clean outcome of [removeUnexpected]: nothing was removed *)
Lemma cl_unknown fuel cd c (Q : bool -> core_ -> Prop) :
  J c -> (forall t c', pk c t c' -> J c' -> Q cd c') ->
  (forall c', Q true c') -> cl (unknown_loop fuel cd) c Q.
Proof.
  intros HJ H Ht. destruct fuel as [|fuel]; [intros s a s' _ E; discriminate|].
  assert (Hc : forall fuel c, cl (unknown_loop fuel true) c Q).
  { clear - Ht. induction fuel as [|fuel IH]; intros c; [intros s a s' _ E; discriminate|].
    cbn [unknown_loop]. intros s a s' Ec E En Hq.
    assert (G : forall s a s', unknown_loop fuel true s = Ok (a, s') -> a = true).
    { clear. induction fuel as [|fuel IH]; intros s a s' E; [discriminate|]. cbn [unknown_loop] in E.
      unfold pbind in E. destruct (peek 0 s) as [[t s1]|w|]; try discriminate. destruct (_ || _); [congruence|].
      destruct (consume s1) as [[u s2]|w|]; try discriminate. eapply IH; eauto. }
    unfold pbind in E. destruct (peek 0 s) as [[t s1]|w|]; try discriminate. destruct (_ || _).
    - injection E as <- <-. apply Ht.
    - destruct (consume s1) as [[u s2]|w|]; try discriminate. apply G in E. subst a. apply Ht. }
  cbn [unknown_loop]. apply cl_bind; [apply mono_peek| |].
  { intros t s a s' E. destruct (_ || _); [injection E as _ <-; lia|].
    revert E. apply mono_bind; [apply mono_consume|intros; apply mono_unknown]. }
  apply cl_peek0; auto. intros t c' Hp HJ' s a s' Ec E En Hq. destruct (_ || _).
  - injection E as <- <-. rewrite Ec. eapply H; eauto.
  - unfold pbind in E. destruct (consume s) as [[u s2]|w|] eqn:E2; try discriminate.
    pose proof (mono_consume _ _ _ E2). pose proof (mono_unknown _ _ _ _ _ E).
    refine (Hc fuel (core s2) s2 a s' eq_refl E ltac:(lia) _). apply (still_quiet s s2 Hq). lia.
Qed.
Lemma cl_removeUnexpected c (Q : bool -> core_ -> Prop) :
  J c -> (forall t c', pk c t c' -> J c' -> Q false c') -> cl (removeUnexpected src) c Q.
Proof.
  intros HJ H. apply cl_bind; [apply mono_consumeAsUnknown| |].
  { intros [r|]; [|apply mono_ret]. apply mono_bind; [apply mono_fix1|intros].
    apply mono_bind; [apply mono_emit|intros; apply mono_ret]. }
  apply cl_bind; [apply mono_peek| |].
  { intros t. apply mono_bind; [apply mono_unknown|intros].
    destruct a; [apply mono_bind; [apply mono_lastR|intros]|]; apply mono_ret. }
  apply cl_peek0; auto. intros t c' Hp HJ'. apply cl_bind; [apply mono_unknown| |].
  { intros [|]; [apply mono_bind; [apply mono_lastR|intros]|]; apply mono_ret. }
  apply cl_unknown; auto.
  - intros t2 c2 Hp2 HJ2. apply cl_ret. apply cl_ret.
    destruct (pk_front _ _ _ Hp) as [bf Ebf].
    destruct Hp2 as [bf2 E2|cu r E2 ? ? ?]; [|congruence]. eapply H; eauto.
  - intros c2. apply cl_bind; [apply mono_lastR|intros; apply mono_ret|]. apply cl_lastR. intros t2 _. apply cl_ret.
    apply cl_bind; [apply mono_fix1|intros; apply mono_bind; [apply mono_emit|intros; apply mono_ret]|].
    apply cl_fix1. intros f. apply cl_bind; [apply mono_emit|intros; apply mono_ret|]. apply cl_emit. discriminate.
Qed.
Lemma cl_expect k c (Q : option token -> core_ -> Prop) :
  J c -> (forall t c', pk c t c' -> J c' -> tk t = k -> Q (Some t) c') -> cl (expect src k) c Q.
Proof.
  intros HJ H. apply cl_withSync.
  assert (MK : mono (let! ins := (fun s => match plast s with
                              | Some l => Ok (rcur (trange l), s)
                              | None => lCur s
                              end) in
        let! f := fix1 (b "insert " ++ spelling k) (mkInsertion ins (spelling k)) in
        do! emit (d_fix f (d_arg (spelling k) (diag0 DK_Expected (point ins)))) in
        ret (@None token))).
  { apply mono_bind; [apply mono_ins|intros]. apply mono_bind; [apply mono_fix1|intros].
    apply mono_bind; [apply mono_emit|intros; apply mono_ret]. }
  assert (MA : forall rm : bool, mono (if rm then let! t' := peek 0 in ret (if tkind_beq (tk t') k then Some t' else None)
                   else ret None)).
  { intros [|]; [apply mono_bind; [apply mono_peek|intros]|]; apply mono_ret. }
  apply cl_bind; [apply mono_peek| |].
  { intros t. destruct (tkind_beq _ _); [apply mono_ret|]. apply mono_bind; [apply mono_removeUnexpected|intros].
    apply mono_bind; [apply MA|]. intros [t'|]; [apply mono_ret|exact MK]. }
  apply cl_peek0; auto. intros t c1 Hp HJ1. destruct (tkind_beq (tk t) k) eqn:Ek.
  - apply cl_ret. apply H; auto. now apply tkind_beq_eq.
  - apply cl_bind; [apply mono_removeUnexpected| |].
    { intros rm. apply mono_bind; [apply MA|]. intros [t'|]; [apply mono_ret|exact MK]. }
    apply cl_removeUnexpected; auto. intros t2 c2 Hp2 HJ2. apply cl_bind; [apply mono_ret| |].
    { intros [t'|]; [apply mono_ret|exact MK]. }
    apply cl_ret.
    intros s a s' Ec E En _. exfalso. unfold pbind in E.
    destruct (match plast s with Some l => _ | None => lCur s end) as [[ins s1]|w|] eqn:E1; try discriminate.
    apply mono_ins in E1.
    destruct (fix1 _ _ s1) as [[f s3]|w|] eqn:E3; try discriminate. apply mono_fix1 in E3.
    destruct (emit _ s3) as [[u s4]|w|] eqn:E4; try discriminate.
    injection E as _ <-. injection E4 as _ <-. rewrite nerr_emit in En. cbn in En. lia.
Qed.

(** * Lexical modes *)
Definition resetc (c : core_) : core_ :=
  match cbuf c with
  | [] => c
  | t :: _ => Core (lcur (trange t)) (skipn (off (lcur (trange t))) src) [] (clast c) (cmodes c)
  end.
Definition push (m : pmode) (c : core_) : core_ :=
  let d := resetc c in Core (ccur d) (crest d) (cbuf d) (clast d) (m :: cmodes d).
Definition popm (c : core_) : core_ :=
  let d := resetc c in Core (ccur d) (crest d) (cbuf d) (clast d) (tl (cmodes d)).
Lemma reset_core s u s' : resetLookAheadBuf src s = Ok (u, s') -> core s' = resetc (core s) /\ nerr s' = nerr s /\ diags (plex s') = diags (plex s).
Proof.
  unfold resetLookAheadBuf, resetc, core. simpl. destruct (pbuf s) as [|t bf] eqn:E.
  - intros [= _ <-]. rewrite E. auto.
  - unfold setCur. destruct (Nat.leb _ _); try discriminate. intros [= _ <-]. simpl. auto.
Qed.
Lemma resetc_buf c : cbuf (resetc c) = [].
Proof. unfold resetc. destruct (cbuf c) eqn:E; auto. Qed.
Lemma J_reset c : J c -> J (resetc c).
Proof.
  intros [G M Bf La Lg]. unfold resetc. destruct (cbuf c) as [|t bf] eqn:E; [constructor; auto; now rewrite E|].
  cbn [ParseInv.bufok] in Bf. destruct Bf as (Gp & T & _).
  constructor; simpl; auto.
  exact (good_setCur src (lcur (trange t)) (Lst (ccur c) (crest c) []) (proj1 (proj1 T))).
Qed.
Lemma J_push m c : J c -> J (push m c).
Proof.
  intros H. apply J_reset in H. destruct H as [G M Bf La Lg]. constructor; simpl; auto; [discriminate| |now rewrite resetc_buf].
  unfold cmode, clastp in *. simpl. rewrite resetc_buf in *. exact Bf.
Qed.
Lemma J_popm m ms c : J c -> cmodes c = m :: ms -> ms <> [] -> J (popm c).
Proof.
  intros H E Hn. apply J_reset in H. destruct H as [G M Bf La Lg].
  assert (Em : cmodes (resetc c) = m :: ms) by (unfold resetc; destruct (cbuf c); exact E).
  constructor; simpl; auto; [now rewrite Em| |now rewrite resetc_buf].
  unfold cmode, clastp in *. simpl. rewrite resetc_buf in *. exact Bf.
Qed.
Lemma cl_withState {A} m (body : P A) c (Q : A -> core_ -> Prop) :
  mono body -> cl body (push m c) (fun a c2 => cmodes c2 = m :: cmodes c /\ Q a (popm c2)) ->
  cl (withState src m body) c Q.
Proof.
  intros HM H s a s' Ec E En Hq. unfold withState, pbind, pushState, pbind in E.
  destruct (resetLookAheadBuf src s) as [[u s1]|w|] eqn:E1; try discriminate.
  destruct (reset_core _ _ _ E1) as (C1 & N1 & D1).
  destruct (body _) as [[x s2]|w|] eqn:E2; try discriminate.
  unfold popState, pbind in E. destruct (resetLookAheadBuf src s2) as [[u3 s3]|w|] eqn:E3; try discriminate.
  destruct (reset_core _ _ _ E3) as (C3 & N3 & D3).
  destruct (pmodes s3) as [|m3 ms3] eqn:Em; try discriminate. injection E as <- <-.
  pose proof (HM _ _ _ E2) as L2. unfold nerr in *. simpl in *.
  assert (Hp : core (set_modes (m :: pmodes s1) s1) = push m c).
  { unfold push. rewrite <- Ec, <- C1. reflexivity. }
  destruct (H _ _ _ Hp E2) as [Hm HQ]; [unfold nerr; simpl; lia|intros Hk; simpl; rewrite D1; auto|].
  unfold popm in HQ. rewrite <- C3 in HQ. unfold core in HQ at 1 2 3 4 5. simpl in HQ. rewrite Em in HQ. exact HQ.
Qed.

(** * What has been read *)
(** [seq lo its hi]: the items lie between the offsets [lo] and [hi] *)
Inductive seq : nat -> list item -> nat -> Prop :=
| seq_nil lo : seq lo [] lo
| seq_cons lo g m k v its hi l0 l1 :
    gap lo l0 -> (g = true -> l0 = lo) -> l0 <= l1 -> l1 <= List.length src -> slice src l0 l1 = v ->
    spelled m k v \/ (m = PS_Expr /\ odd_token k v) -> longest m k v (skipn l1 src) ->
    seq l1 its hi -> seq lo (It g m k v :: its) hi.
Lemma seq_app lo i1 mid i2 hi : seq lo i1 mid -> seq mid i2 hi -> seq lo (i1 ++ i2) hi.
Proof. induction 1; intros; simpl; auto. econstructor; eauto. Qed.

(** where the next token starts *)
Definition front (c : core_) (p : nat) : Prop :=
  match cbuf c with
  | t :: _ => p = off (lcur (trange t))
  | [] => exists t l, lex_mode (cmode c) (Lst (ccur c) (crest c) []) = Ok (t, l) /\ p = off (lcur (trange t))
  end.
(** the first of the items starts at [p] *)
Definition first_at (p : nat) (its : list item) (hi : nat) : Prop :=
  exists g m k v r l1, its = It g m k v :: r /\ p <= l1 /\ l1 <= List.length src /\ slice src p l1 = v /\
    (spelled m k v \/ (m = PS_Expr /\ odd_token k v)) /\ longest m k v (skipn l1 src) /\ seq l1 r hi.
(** [fl c its c']: the items were consumed between the states *)
Record fl (c : core_) (its : list item) (c' : core_) : Prop := {
  f_J : J c';
  f_modes : cmodes c' = cmodes c;
  f_seq : seq (clastp c) its (clastp c');
  f_b1 : List.length its < List.length (cbuf c) -> cbuf c' = skipn (List.length its) (cbuf c);
  f_b2 : List.length (cbuf c) <= List.length its -> List.length (cbuf c') <= 1;
  f_b3 : forall i it t, nth_error its i = Some it -> nth_error (cbuf c) i = Some t ->
           tk t = kind_of_item it \/ tk t = tok_path_fragment;
  f_first : silent = true ->
    match its with
    | [] => forall p, front c' p -> front c p
    | _ => exists p, front c p /\ first_at p its (clastp c')
    end }.

Lemma fl_refl c : J c -> fl c [] c.
Proof.
  intros H. constructor; auto.
  - apply seq_nil.
  - intros [|] it t E; discriminate.
Qed.
Lemma first_app p i1 mid i2 hi : first_at p i1 mid -> seq mid i2 hi -> first_at p (i1 ++ i2) hi.
Proof.
  intros (g & m & k & v & r & l1 & -> & H1 & H2 & H3 & H4 & H5 & H6) H. exists g, m, k, v, (r ++ i2), l1.
  repeat (split; [solve [auto]|]). eapply seq_app; eauto.
Qed.
Lemma skipn_skipn_ {A} x y (l : list A) : skipn x (skipn y l) = skipn (y + x) l.
Proof. revert l. induction y as [|y IH]; intros [|a l]; simpl; auto. now destruct x. Qed.
Lemma nth_skipn_ {A} n i (l : list A) : nth_error (skipn n l) i = nth_error l (n + i).
Proof. revert l. induction n as [|n IH]; intros [|a l]; simpl; auto. now destruct i. Qed.
Lemma fl_trans c1 i1 c2 i2 c3 : fl c1 i1 c2 -> fl c2 i2 c3 -> fl c1 (i1 ++ i2) c3.
Proof.
  intros [A1 A2 A3 A4 A5 A6 A7] [B1 B2 B3 B4 B5 B6 B7]. constructor; auto.
  - congruence.
  - eapply seq_app; eauto.
  - rewrite app_length. intros H. rewrite B4; rewrite A4 by lia.
    + now rewrite skipn_skipn_.
    + rewrite skipn_length. lia.
  - rewrite app_length. intros H. destruct (le_lt_dec (List.length (cbuf c1)) (List.length i1)) as [H1|H1].
    + specialize (A5 H1). destruct (le_lt_dec (List.length (cbuf c2)) (List.length i2)) as [H2|H2]; auto.
      rewrite (B4 H2), skipn_length. lia.
    + specialize (A4 H1). apply B5. rewrite A4, skipn_length. lia.
  - intros i it t E1 E2. destruct (le_lt_dec (List.length i1) i) as [Hi|Hi].
    + rewrite nth_error_app2 in E1 by exact Hi.
      assert (Hlen : List.length i1 < List.length (cbuf c1)).
      { assert (i < List.length (cbuf c1)) by (apply nth_error_Some; congruence). lia. }
      apply (B6 (i - List.length i1) it t E1). rewrite (A4 Hlen).
      rewrite nth_skipn_, <- E2. f_equal. lia.
    + rewrite nth_error_app1 in E1 by exact Hi. eauto.
  - intros Hq. specialize (A7 Hq). specialize (B7 Hq). destruct i1 as [|x i1]; cbn [app].
    + destruct i2; [auto|]. destruct B7 as (p & H1 & H2). exists p. auto.
    + destruct A7 as (p & H1 & H2). exists p. split; auto. change (x :: i1 ++ i2) with ((x :: i1) ++ i2).
      eapply first_app; eauto.
Qed.
Lemma pk_fl c t c' : pk c t c' -> J c' -> fl c [] c'.
Proof.
  intros H HJ. destruct H as [bf E|cu r E Hm Hps Hl].
  - now apply fl_refl.
  - constructor; auto.
    + apply seq_nil.
    + rewrite E. simpl. lia.
    + intros [|] it t' E1; discriminate.
    + intros Hq p Hp. unfold front in *. cbn [cbuf] in Hp. rewrite E. destruct (Hl Hq) as [l El]. exists t, l. auto.
Qed.
Lemma J_tok c t bf : J c -> cbuf c = t :: bf -> tokok (cmode c) t.
Proof. intros [_ _ H _ _] E. rewrite E in H. cbn [ParseInv.bufok] in H. apply H. Qed.
Lemma J_pop c t bf : J c -> cbuf c = t :: bf -> J (pop t c).
Proof.
  intros [G M Bf La Lg] E. rewrite E in Bf. cbn [ParseInv.bufok] in Bf. destruct Bf as (Gp & T & Hb).
  constructor; simpl; auto; [|intros t' [= <-]; eauto|rewrite E in *; inversion_clear Lg; auto]. rewrite E. simpl. unfold cmode, clastp in *. simpl.
  destruct bf; [|apply Hb]. cbn [ParseInv.bufok]. rewrite Hb. apply gap_refl.
Qed.
Lemma pop_fl g c t bf :
  J c -> cbuf c = t :: bf -> (g = true -> tight c) -> fl c [It g (cmode c) (tk t) (tview t)] (pop t c).
Proof.
  intros HJ E Hg. pose proof (J_pop _ _ _ HJ E) as HJ'. pose proof (J_tok _ _ _ HJ E) as T.
  constructor; auto.
  - pose proof (j_buf _ HJ) as Bf. rewrite E in Bf. cbn [ParseInv.bufok] in Bf. destruct Bf as (Gp & _).
    destruct T as ((F1 & F2 & F3 & F4) & Sp & _).
    eapply seq_cons with (l0 := off (lcur (trange t))) (l1 := off (rcur (trange t))); auto.
    + intros Eg. specialize (Hg Eg). unfold tight, cbase in Hg. rewrite E in Hg. exact Hg.
    + apply cursor_in_len. exact F2.
    + pose proof (j_long _ HJ) as Lg. rewrite E in Lg. now inversion_clear Lg.
    + constructor.
  - simpl. rewrite E. simpl. lia.
  - intros [|i] it t' E1 E2.
    + injection E1 as <-. rewrite E in E2. injection E2 as <-. left. reflexivity.
    + destruct i; discriminate.
  - intros Hq. exists (off (lcur (trange t))). split; [unfold front; now rewrite E|].
    destruct T as ((F1 & F2 & F3 & F4) & Sp & _). exists g, (cmode c), (tk t), (tview t), [], (off (rcur (trange t))).
    split; [reflexivity|]. split; [auto|]. split; [now apply cursor_in_len|]. split; [auto|]. split; [auto|]. split; [|constructor].
    pose proof (j_long _ HJ) as Lg. rewrite E in Lg. now inversion_clear Lg.
Qed.
Lemma pop_tight c t : J c -> cbuf c = [t] -> tight (pop t c) /\ cbuf (pop t c) = [].
Proof.
  intros [_ _ Bf _ _] E. rewrite E in Bf. cbn [ParseInv.bufok] in Bf. destruct Bf as (_ & _ & Hb).
  unfold tight, cbase, clastp. simpl. rewrite E. simpl. rewrite Hb. auto.
Qed.
(** a token after which there is no looking ahead is alone in the buffer *)
Lemma J_alone c t bf : J c -> cbuf c = t :: bf -> ~ la (tk t) -> bf = [].
Proof.
  intros [_ _ Bf _] E H. rewrite E in Bf. cbn [ParseInv.bufok] in Bf. destruct Bf as (_ & _ & Hb).
  destruct bf; auto. now destruct Hb.
Qed.
Lemma pk_tight c t c' : J c -> pk c t c' -> cmode c <> PS_Expr -> tight c -> tight c'.
Proof.
  intros HJ H Hm Ht. destruct H as [bf E|cu r E He Hps _]; auto. unfold tight, cbase, clastp in *. simpl. rewrite E in Ht.
  now rewrite He.
Qed.
Lemma pk_path c t c' : pk c t c' -> cbuf c = [] -> cmode c = PS_Path -> path_start (crest c) -> tk t = tok_path_fragment.
Proof. intros [bf E|cu r E He Hps _] Eb Hm Hp; [congruence|auto]. Qed.
Lemma push_seq m c : clastp (push m c) = clastp c.
Proof. unfold push, resetc. destruct (cbuf c); reflexivity. Qed.
Lemma popm_seq c : clastp (popm c) = clastp c.
Proof. unfold popm, resetc. destruct (cbuf c); reflexivity. Qed.
End Gram.
