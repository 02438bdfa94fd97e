(** Proofs for C66 and C67: where tokens end, and what the lexer reports. *)
From Verif Require Import Base Diag LexModel LexSpec LexProofs LexLongSpec.

(** ** The classes, the other way round *)
Lemma class_back (l : bytes) (P : ascii -> bool) : forallb P l = true -> forall c, In c l -> P c = true.
Proof. intros H c Hc. rewrite forallb_forall in H. auto. Qed.

Lemma id_back c : id_char c -> isIdentifierChar c = true.
Proof. apply class_back. vm_compute. reflexivity. Qed.
Lemma digit_back c : digit c -> mem_char c (b "0123456789") = true.
Proof. apply (class_back digits (fun c => mem_char c (b "0123456789"))). vm_compute. reflexivity. Qed.
Lemma uri_back c : uri_char c -> isUriPathChar c = true.
Proof. apply class_back. vm_compute. reflexivity. Qed.
Lemma path_back c : path_char c -> isPathChar c = true.
Proof. apply class_back. vm_compute. reflexivity. Qed.
Lemma path_slash_back c : path_char c \/ c = "/"%char -> isPathOrSlash c = true.
Proof. intros [H| ->]; [|reflexivity]. unfold isPathOrSlash. now rewrite (path_back c H). Qed.

Lemma stop_next (P : ascii -> bool) (Q : ascii -> Prop) r :
  (forall c, Q c -> P c = true) -> match r with [] => True | c :: _ => P c = false end -> ~ next Q r.
Proof. intros H Hs. destruct r as [|c r]; simpl; auto. intros Hq. apply H in Hq. congruence. Qed.

(** ** Loops take at least the characters they like *)
Lemma span_long P x q : forallb P x = true -> List.length x <= List.length (fst (span P (x ++ q))).
Proof.
  induction x as [|c x IH]; simpl; [lia|]. intros H. apply andb_true_iff in H as [-> H].
  specialize (IH H). destruct (span P (x ++ q)). simpl in *. lia.
Qed.

Lemma cw_long P s x q :
  rest s = x ++ q -> forallb P x = true ->
  exists w, mv0 w s (consumeWhile P s) /\ List.length x <= List.length w.
Proof.
  intros Hr Hx. unfold consumeWhile. rewrite cw_aux_span, Hr.
  pose proof (span_long P x q Hx) as HL.
  destruct (span_spec P (x ++ q)) as (w & q' & E & Hq & _). rewrite E in *. simpl in *.
  exists w. split; [|lia]. repeat split; simpl. congruence.
Qed.

Lemma many_long P s x q :
  rest s = x ++ q -> forallb P x = true ->
  exists o w s', consumeMany P s = (o, s') /\ mv0 w s s' /\ List.length x <= List.length w.
Proof.
  intros Hr Hx. unfold consumeMany. destruct (rest s) as [|c r] eqn:E.
  - destruct x; [|discriminate]. exists false, [], s. auto using mv0_refl.
  - destruct (P c) eqn:Pc.
    + rewrite <- E in Hr. destruct (cw_long P s x q Hr Hx) as (w & M & L).
      exists true, w, (consumeWhile P s). auto.
    + destruct x as [|d x]; [exists false, [], s; auto using mv0_refl|].
      injection Hr as -> ->. simpl in Hx. rewrite Pc in Hx. discriminate.
Qed.

(** a token of at least [n] characters *)
Definition atleast (n : nat) (s : lst) : Prop :=
  forall t s', lexToken s = Ok (t, s') -> n <= List.length (tview t).

Lemma finish_len k s s' w n : mv0 w s s' -> n <= List.length w -> n <= List.length (tview (finishToken k s s')).
Proof. intros M H. rewrite (mv_finish k w s s' (mv0_mv _ _ _ M)). exact H. Qed.

Lemma tryPath_long c s o s1 x q :
  tryPath c s = Ok (o, s1) -> rest s = x ++ q -> forallb isPathChar x = true -> o = true ->
  exists w, mv0 w s s1 /\ List.length x <= List.length w.
Proof.
  unfold tryPath. intros H Hr Hx ->.
  match type of H with (if ?z then _ else _) = _ => destruct z; [|discriminate] end.
  unfold consumePathStart in H.
  destruct (consumeOne_spec "~" s) as [(r & Hr2 & E)|[E _]]; rewrite E in H; cbn [bind] in H.
  - destruct x as [|d x].
    + revert H. set (s0 := Lst _ _ _).
      destruct (consumeOne_spec "/" s0) as [(r3 & Hr3 & ->)|[-> _]]; cbn [bind andb]; [|discriminate].
      match goal with |- context [if ?z then _ else _] => destruct z end; [|discriminate].
      intros [= <-]. exists (b "~/"). split; [|simpl; lia]. repeat split. simpl in *. now rewrite Hr2, Hr3.
    + rewrite Hr2 in Hr. injection Hr as <- ->. discriminate Hx.
  - unfold consumeManyPathChar in H.
    destruct (many_long isPathChar s x q Hr Hx) as (o & w & s2 & E2 & M2 & L2). rewrite E2 in H.
    destruct (consumeOne_spec "/" s2) as [(r3 & Hr3 & E3)|[E3 _]]; rewrite E3 in H; cbn [bind andb] in H; [|discriminate].
    match type of H with (if ?z then _ else _) = _ => destruct z; [|discriminate] end.
    injection H as <-. exists (w ++ b "/"). split; [|rewrite app_length; lia].
    apply (mv0_trans _ _ _ _ _ M2). now repeat split.
Qed.

Lemma tryURI_long c s o s1 x q :
  tryURI c s = Ok (o, s1) -> rest s = x ++ q -> forallb isUriSchemeChar x = true -> o = true ->
  exists w, mv0 w s s1 /\ List.length x <= List.length w.
Proof.
  unfold tryURI. intros H Hr Hx ->. destruct (isalpha c); [|discriminate].
  unfold consumeURI in H. destruct (cw_long isUriSchemeChar s x q Hr Hx) as (w & M & L).
  revert H. set (s2 := consumeWhile isUriSchemeChar s) in *.
  unfold lpeek_is. destruct (rest s2) as [|e r2] eqn:E2; [discriminate|].
  destruct (Ascii.eqb e ":") eqn:Ee; [|discriminate].
  rewrite (consume1_spec e r2 s2 E2). cbn [bind]. unfold lpeek. cbn [rest].
  destruct r2 as [|e2 r3] eqn:E3; [discriminate|]. destruct (isUriPathChar e2); [|discriminate].
  intros [= <-]. set (s3 := Lst _ _ _).
  destruct (consumeWhile_spec isUriPathChar s3) as (w3 & M3 & _).
  exists (w ++ [e] ++ w3). split; [|rewrite !app_length; lia].
  apply (mv0_trans _ _ _ _ _ M). apply (mv0_trans [e] w3 _ s3); [|exact M3]. now repeat split.
Qed.

Lemma op_part k s s6 w (t : token) s' n :
  mv0 w s s6 -> n <= List.length w ->
  (if tkind_beq k tok_unknown then let* s7 := consume 1 s6 in Ok (finishToken k s s7, s7)
   else Ok (finishToken k s s6, s6)) = Ok (t, s') -> n <= List.length (tview t).
Proof.
  intros M Hn. destruct (tkind_beq k tok_unknown).
  - destruct (rest s6) as [|c r] eqn:E.
    + unfold consume. rewrite E. discriminate.
    + rewrite (consume1_spec c r s6 E). cbn [bind]. intros [= <- <-].
      apply (finish_len _ _ _ (w ++ [c])); [|rewrite app_length; lia].
      apply (mv0_trans _ _ _ _ _ M). now apply mv0_1.
  - intros [= <- <-]. eapply finish_len; eauto.
Qed.

Lemma tryPath_total c s : exists o s1, tryPath c s = Ok (o, s1).
Proof.
  unfold tryPath. match goal with |- context [if ?z then _ else _] => destruct z end; [|eauto].
  destruct (consumePathStart_spec s) as [(v & s' & -> & _)| ->]; eauto.
Qed.
Lemma tryURI_total c r s : rest s = c :: r -> exists o s1, tryURI c s = Ok (o, s1).
Proof.
  intros Hr. unfold tryURI. destruct (isalpha c) eqn:E; [|eauto].
  destruct (consumeURI_spec s c r Hr E) as [(v & s' & -> & _)| ->]; eauto.
Qed.

Lemma word_atleast c x q s :
  rest s = (c :: x) ++ q -> forallb isalpha (c :: x) = true -> atleast (S (List.length x)) s.
Proof.
  intros Hr Hx t s'. unfold lexToken, lpeek. rewrite Hr. cbn [app].
  pose proof (Forall_forall (fun c => isalpha c = true) (c :: x)) as Hfa.
  assert (HP : forallb isPathChar (c :: x) = true).
  { rewrite forallb_forall in *. intros d Hd. apply (impl_on_spec isalpha isPathChar); [vm_compute; reflexivity|auto]. }
  assert (HU : forallb isUriSchemeChar (c :: x) = true).
  { rewrite forallb_forall in *. intros d Hd. apply (impl_on_spec isalpha isUriSchemeChar); [vm_compute; reflexivity|auto]. }
  assert (HI : forallb isIdentifierChar (c :: x) = true).
  { rewrite forallb_forall in *. intros d Hd. apply (impl_on_spec isalpha isIdentifierChar); [vm_compute; reflexivity|auto]. }
  assert (Ha : isalpha c = true) by (simpl in Hx; now apply andb_true_iff in Hx as [? _]).
  assert (Hd : isdigit c = false).
  { destruct (isdigit c) eqn:E; auto. exfalso.
    assert (impl_on isdigit (fun c => negb (isalpha c)) = true) as HH by (vm_compute; reflexivity).
    pose proof (impl_on_spec _ _ HH c E) as H2. simpl in H2. rewrite Ha in H2. discriminate. }
  destruct (tryPath_total c s) as (o & s1 & E1). rewrite E1. cbn [bind]. destruct o.
  { destruct (tryPath_long c s true s1 (c :: x) q E1 Hr HP eq_refl) as (w & M & L).
    intros [= <- <-]. eapply finish_len; eauto. }
  destruct (tryURI_total c (x ++ q) s Hr) as (o & s2 & E2). rewrite E2. cbn [bind]. destruct o.
  { destruct (tryURI_long c s true s2 (c :: x) q E2 Hr HU eq_refl) as (w & M & L).
    intros [= <- <-]. eapply finish_len; eauto. }
  rewrite Hd, Ha. cbn [orb]. unfold lexIdentifier. rewrite (consume1_spec c (x ++ q) s Hr). cbn [bind].
  set (s3 := Lst _ _ _). simpl in HI. apply andb_true_iff in HI as [_ HI].
  destruct (cw_long isIdentifierChar s3 x q eq_refl HI) as (w & M & L).
  intros [= <- <-]. apply (finish_len _ _ _ (c :: w)); [|simpl; lia].
  apply (mv0_trans [c] w _ s3); [now apply mv0_1|exact M].
Qed.

(** operators that cannot be anything else *)
Lemma op_atleast c x q s k :
  rest s = (c :: x) ++ q ->
  (isPathChar c || Ascii.eqb c "/" || Ascii.eqb c "~" = false \/ consumePathStart s = Ok (false, s) \/ forallb isPathChar (c :: x) = true) ->
  isalpha c = false -> isdigit c = false -> Ascii.eqb c "_" = false ->
  (Ascii.eqb c "<" = false \/ consumeSPath s = Ok (false, s)) ->
  (exists w s6, lexOp c s = Ok (k, s6) /\ mv0 w s s6 /\ S (List.length x) <= List.length w) ->
  atleast (S (List.length x)) s.
Proof.
  intros Hr HP Ha Hd Hu HS (w & s6 & EO & M & L) t s'. unfold lexToken, lpeek. rewrite Hr. cbn [app].
  destruct (tryPath_total c s) as (o & s1 & E1). rewrite E1. cbn [bind]. destruct o.
  { destruct HP as [HP|[HP|HP]].
    - unfold tryPath in E1. rewrite HP in E1. discriminate.
    - unfold tryPath in E1. rewrite HP in E1. destruct (_ || _ || _)%bool; discriminate.
    - destruct (tryPath_long c s true s1 (c :: x) q E1 Hr HP eq_refl) as (w1 & M1 & L1).
      intros [= <- <-]. eapply finish_len; eauto. }
  unfold tryURI. rewrite Ha. cbn [bind]. rewrite Hd. cbn [orb]. rewrite Hu. cbn [orb].
  assert (trySPath c s = Ok (false, s)) as ->.
  { unfold trySPath. destruct HS as [-> | ->]; [reflexivity|]. now destruct (Ascii.eqb c "<"). }
  cbn [bind]. rewrite EO. cbn [bind]. now apply (op_part k s s6 w).
Qed.

Lemma prefix_yes p q s : rest s = p ++ q -> consumePrefix p s = Ok (true, Lst (advs p (cur s)) q (diags s)).
Proof.
  intros Hr. destruct (consumePrefix_spec p s) as [(r & Hr2 & ->)|[H _]].
  - rewrite Hr in Hr2. apply app_inv_head in Hr2. now subst.
  - now destruct (H q).
Qed.
Lemma prefix_no p s : starts_with p (rest s) = false -> consumePrefix p s = Ok (false, s).
Proof. intros H. unfold consumePrefix, peekPrefix. now rewrite H. Qed.

Lemma documented_atleast k v q s : In (k, v) documented -> rest s = v ++ q -> atleast (List.length v) s.
Proof.
  intros Hin Hr.
  assert (H1 : List.length v <= 1 -> atleast (List.length v) s).
  { intros HL t s' E. destruct (lexToken_spec s) as (k0 & v0 & s0 & E0 & _ & _ & Hne & _).
    rewrite E in E0. injection E0 as -> ->. simpl. destruct v as [|c [|? ?]]; simpl in *; try lia.
    destruct Hne as [_ Hne]; [rewrite Hr; discriminate|]. destruct v0; [congruence|]. simpl. lia. }
  assert (OP : forall c x k0, v = c :: x ->
     (isPathChar c || Ascii.eqb c "/" || Ascii.eqb c "~" = false \/ consumePathStart s = Ok (false, s) \/ forallb isPathChar (c :: x) = true) ->
     isalpha c = false -> isdigit c = false -> Ascii.eqb c "_" = false ->
     (Ascii.eqb c "<" = false \/ consumeSPath s = Ok (false, s)) ->
     (exists w s6, lexOp c s = Ok (k0, s6) /\ mv0 w s s6 /\ S (List.length x) <= List.length w) ->
     atleast (List.length v) s).
  { intros c x k0 -> HP Ha Hd Hu HS HO. now apply (op_atleast c x q s k0). }
  assert (PO : forall c x, v = c :: x -> mv0 v s (Lst (advs v (cur s)) q (diags s))).
  { intros c x _. now apply mv0_Lst. }
  simpl in Hin.
  repeat (destruct Hin as [[= <- <-]|Hin];
    [first [ apply H1; simpl; lia
           | apply (word_atleast _ _ q s Hr); vm_compute; reflexivity
           | idtac ] |]); [..|destruct Hin].
  all: destruct s as [p r ds]; cbn [rest] in Hr; subst r.
  all: first
    [ (* prefix_or *)
      eapply OP; [reflexivity|first [left; reflexivity|right; left; reflexivity|right; right; reflexivity]
                 |reflexivity|reflexivity|reflexivity|first [left; reflexivity|right; reflexivity]|];
      match goal with
      | |- exists w s6, lexOp ?c (Lst ?p (?v ++ ?q) ?ds) = _ /\ _ =>
          exists v, (Lst (advs v p) q ds); split; [|split; [now apply mv0_Lst|simpl; lia]];
          first [reflexivity]
      end
    | idtac ].
  (* || may go on with |> *)
  set (s1 := Lst (advs (b "||") p) q ds).
  destruct (consumePrefix_spec (b "|>") s1) as [(q2 & Hq2 & E)|[_ E]].
  - apply (OP "|"%char (b "|") tok_op_pipe_into); try reflexivity; try (left; reflexivity).
    exists (b "|||>"), (Lst (advs (b "|>") (cur s1)) q2 (diags s1)). split; [|split; [|simpl; lia]].
    + transitivity (let* (z, s2) := consumePrefix (b "|>") s1 in
                    Ok (if z then tok_op_pipe_into else tok_op_or, s2)); [reflexivity|]. now rewrite E.
    + apply (mv0_trans (b "||") (b "|>") _ s1); [now apply mv0_Lst|now apply mv0_Lst].
  - apply (OP "|"%char (b "|") tok_op_or); try reflexivity; try (left; reflexivity).
    exists (b "||"), s1. split; [|split; [now apply mv0_Lst|simpl; lia]].
    transitivity (let* (z, s2) := consumePrefix (b "|>") s1 in
                  Ok (if z then tok_op_pipe_into else tok_op_or, s2)); [reflexivity|]. now rewrite E.
Qed.

(** ** The kinds the branches give *)
Lemma lexOp_kind c s k s' : lexOp c s = Ok (k, s') ->
  ~ In k word_kinds /\ k <> tok_int /\ k <> tok_float /\ k <> tok_uri /\ k <> tok_path_fragment.
Proof.
  unfold lexOp, prefix_or, prefix_only, single. intros H.
  repeat match type of H with
  | (if Ascii.eqb c ?d then _ else _) = _ => destruct (Ascii.eqb c d)
  end.
  all: repeat match type of H with
  | bind ?m _ = _ => destruct m as [[? ?]| |] eqn:?; cbn [bind] in H; try discriminate
  | bind ?m _ = _ => destruct m as [?| |] eqn:?; cbn [bind] in H; try discriminate
  | (if ?z then _ else _) = _ => destruct z; try discriminate
  | Ok (if ?z then _ else _, _) = _ => destruct z
  end.
  all: injection H as <- _; (split; [simpl; intuition discriminate|repeat split; discriminate]).
Qed.

Lemma lexOp_unknown c r s s' k v q :
  rest s = c :: r -> lexOp c s = Ok (tok_unknown, s') -> In (k, v) documented -> rest s = v ++ q ->
  2 <= List.length v.
Proof.
  intros Hr H Hin Hv. destruct (le_lt_dec (List.length v) 1) as [HL|HL]; [exfalso|lia].
  simpl in Hin.
  repeat (destruct Hin as [[= <- <-]|Hin];
    [try (simpl in HL; lia); rewrite Hr in Hv; injection Hv as -> ->; clear HL; revert H|]); [..|destruct Hin].
  all: clear - s; intros H; cbv beta iota zeta delta [lexOp Ascii.eqb Bool.eqb single prefix_or prefix_only] in H.
  all: repeat match type of H with
  | bind ?m _ = _ => destruct m as [[? ?]| |]; cbn [bind] in H; try discriminate
  | bind ?m _ = _ => destruct m as [?| |]; cbn [bind] in H; try discriminate
  | (if ?z then _ else _) = _ => destruct z; try discriminate
  | Ok (if ?z then _ else _, _) = _ => destruct z; try discriminate
  end.
Qed.

(** ** Expression mode *)
Lemma lexToken_long s t s' : lexToken s = Ok (t, s') -> longest PS_Expr (tk t) (tview t) (rest s').
Proof.
  intros H. destruct (lexToken_spec s) as (k & v & s0 & E0 & M & He & Hne & _).
  rewrite H in E0. injection E0 as -> <-. cbn [tk tview].
  assert (Hr : rest s = v ++ rest s') by apply M.
  assert (HL : forall k' v', In (k', v') documented -> begins v' (v ++ rest s') -> List.length v' <= List.length v).
  { intros k' v' Hin (q & Hq). rewrite <- Hr in Hq. exact (documented_atleast k' v' q s Hin Hq _ _ H). }
  assert (HU : k = tok_unknown -> forall k' v', In (k', v') documented -> ~ begins v' (v ++ rest s')).
  { intros -> k' v' Hin (q & Hq). rewrite <- Hr in Hq.
    pose proof (documented_atleast k' v' q s Hin Hq _ _ H) as L1. cbn [tview] in L1.
    revert H. unfold lexToken, lpeek. destruct (rest s) as [|c r] eqn:Hc.
    { intros [= Ex _]. }
    destruct (tryPath_total c s) as (o & s1 & ->). cbn [bind]. destruct o; [intros [= Ex]; discriminate|].
    destruct (tryURI_total c r s Hc) as (o & s2 & ->). cbn [bind]. destruct o; [intros [= Ex]; discriminate|].
    destruct (isdigit c) eqn:Hd.
    { unfold lexNumbers. destruct (consumeManyDigits s) as [o3 s3]. destruct (negb o3); [discriminate|].
      destruct (lpeek_is "." s3); [|intros [= Ex]; discriminate].
      destruct (consume 1 s3) as [s4| |]; cbn [bind]; try discriminate.
      destruct (consumeManyDigits s4) as [o5 s5]. destruct (lexFloatExp s5) as [s6| |]; cbn [bind]; try discriminate.
      match goal with |- context [if ?z then _ else _] => destruct z end; cbn [bind]; intros [= Ex]; discriminate. }
    destruct (isalpha c || Ascii.eqb c "_")%bool eqn:Hid.
    { destruct (lexIdentifier s) as [s3| |]; cbn [bind]; try discriminate. intros [= Ex _].
      destruct (maybeKW_spec (slice_between s s3)) as [(Hk & _)|[Hk _]]; rewrite Ex in Hk; [|discriminate].
      simpl in Hk. intuition discriminate. }
    destruct (trySPath c s) as [[o5 s5]| |]; cbn [bind]; try discriminate. destruct o5; [intros [= Ex]; discriminate|].
    destruct (lexOp c s) as [[k6 s6]| |] eqn:EO; cbn [bind]; try discriminate.
    destruct (tkind_beq k6 tok_unknown) eqn:Ek.
    - apply internal_tkind_dec_bl in Ek. subst k6.
      pose proof (lexOp_unknown c r s s6 k' v' q Hc EO Hin ltac:(rewrite Hc; exact Hq)) as L2.
      destruct (lexOp_spec c r s Hc) as (k7 & v7 & s7 & EO7 & M7 & HH). rewrite EO in EO7. injection EO7 as <- <-.
      destruct HH as [[_ ->]|(HH & _)]; [|congruence].
      destruct M7 as (B1 & B2 & B3). simpl in B1. rewrite Hc in B1. symmetry in B1.
      rewrite (consume1_spec c r s6 B1). cbn [bind]. intros [= Ev Es].
      assert (mv0 [c] s s').
      { subst s'. repeat split; simpl; [exact Hc|now rewrite B2|now rewrite B3]. }
      assert (H1 : v = [c]).
      { rewrite <- Es, H0. now apply mv_slice, mv0_mv. }
      rewrite H1 in L1. simpl in L1. lia.
    - intros [= Ex]. subst k6. discriminate. }
  revert H. unfold lexToken, lpeek. destruct (rest s) as [|c r] eqn:Hc.
  { destruct (He eq_refl) as [-> ->]. intros _. repeat split; try discriminate.
    - eapply HL; eauto.
    - simpl. intuition discriminate. }
  assert (FIN : (In k word_kinds -> ~ next id_char (rest s')) ->
      (k = tok_int -> ~ next (fun c => digit c \/ c = "."%char) (rest s')) ->
      (k = tok_float -> ~ next digit (rest s')) ->
      (k = tok_uri -> ~ next uri_char (rest s')) ->
      (k = tok_path_fragment -> next path_char (rest s') \/ begins (b "${") (rest s')) ->
      longest PS_Expr k v (rest s')).
  { intros. repeat split; auto; try (eapply HL; eauto).
    intros ->. eapply (HU eq_refl); eauto. }
  destruct (tryPath c s) as [[o s1]| |] eqn:EP; cbn [bind]; try discriminate. destruct o.
  { intros [= <- _ _ <-]. apply FIN; try discriminate; [simpl; intuition discriminate|]. intros _.
    assert (PS : forall s0, peek_path_char s0 || peekPrefix (b "${") s0 = true -> next path_char (rest s0) \/ begins (b "${") (rest s0)).
    { intros s0 Hs. apply orb_true_iff in Hs as [Hs|Hs].
      - left. unfold peek_path_char, lpeek in Hs. destruct (rest s0); [discriminate|]. now apply isPathChar_path.
      - right. apply starts_with_spec in Hs as [q Hq]. now exists q. }
    unfold tryPath in EP. match type of EP with (if ?z then _ else _) = _ => destruct z; [|discriminate] end.
    unfold consumePathStart in EP.
    destruct (consumeOne "~" s) as [[o2 s2]| |]; cbn [bind] in EP; try discriminate. destruct o2.
    - destruct (consumeOne "/" s2) as [[o3 s3]| |]; cbn [bind] in EP; try discriminate.
      match type of EP with (if ?z then _ else _) = _ => destruct z eqn:Ez; [|discriminate] end.
      injection EP as <-. subst. apply PS. apply andb_true_iff in Ez; apply Ez.
    - destruct (consumeManyPathChar s2) as [o3 s3].
      destruct (consumeOne "/" s3) as [[o4 s4]| |]; cbn [bind] in EP; try discriminate.
      match type of EP with (if ?z then _ else _) = _ => destruct z eqn:Ez; [|discriminate] end.
      injection EP as <-. subst. apply PS. apply andb_true_iff in Ez; apply Ez. }
  destruct (tryURI c s) as [[o s2]| |] eqn:EU; cbn [bind]; try discriminate. destruct o.
  { intros [= <- _ _ <-]. apply FIN; try discriminate; [simpl; intuition discriminate|]. intros _.
    unfold tryURI in EU. destruct (isalpha c); [|discriminate]. unfold consumeURI in EU.
    destruct (lpeek_is ":" _); [|discriminate].
    destruct (consume 1 _) as [s3| |]; cbn [bind] in EU; try discriminate.
    destruct (lpeek s3) as [e|]; [|discriminate]. destruct (isUriPathChar e); [|discriminate].
    injection EU as <-. destruct (consumeWhile_spec isUriPathChar s3) as (w & _ & _ & Hs).
    exact (stop_next _ _ _ uri_back Hs). }
  destruct (isdigit c) eqn:Hd.
  { unfold lexNumbers.
    destruct (consumeManyDigits s) as [o3 s3] eqn:E3. destruct (negb o3); [discriminate|].
    assert (DS : forall sa o sb, consumeManyDigits sa = (o, sb) ->
      match rest sb with [] => True | d :: _ => mem_char d (b "0123456789") = false end).
    { intros sa o sb Es. unfold consumeManyDigits in Es.
      destruct (consumeMany_spec (fun c => mem_char c (b "0123456789")) sa) as [(d & w & sc & Ec & _ & _ & Hs)|[Ec Hs]];
        rewrite Ec in Es; injection Es as <- <-; exact Hs. }
    destruct (lpeek_is "." s3) eqn:Edot.
    - destruct (consume 1 s3) as [s4| |]; cbn [bind]; try discriminate.
      destruct (consumeManyDigits s4) as [o5 s5] eqn:E5.
      assert (HX : forall s6, lexFloatExp s5 = Ok s6 -> ~ next digit (rest s6)).
      { intros s6. unfold lexFloatExp.
        destruct (consumeOneOf (b "Ee") s5) as [[oe s7]| |] eqn:E7; cbn [bind]; try discriminate.
        destruct oe as [ch|].
        - destruct (consumeOneOf (b "+-") s7) as [[oe s8]| |] eqn:E8; cbn [bind]; try discriminate.
          destruct (consumeManyDigits s8) as [o9 s9] eqn:E9. pose proof (DS _ _ _ E9) as HH.
          destruct o9; intros [= <-]; exact (stop_next _ _ _ digit_back HH).
        - intros [= <-]. destruct (consumeOneOf_spec (b "Ee") s5) as [(? & ? & _ & _ & Ey)|Ey]; rewrite Ey in E7;
            [discriminate|]. injection E7 as <-. exact (stop_next _ _ _ digit_back (DS _ _ _ E5)). }
      destruct (lexFloatExp s5) as [s6| |] eqn:E6; cbn [bind]; try discriminate.
      match goal with |- context [if ?z then _ else _] => destruct z end; cbn [bind]; intros [= <- _ _ <-];
        (apply FIN; try discriminate; [simpl; intuition discriminate|]; intros _; apply (HX s6 eq_refl)).
    - intros [= <- _ _ <-]. apply FIN; try discriminate; [simpl; intuition discriminate|]. intros _.
      apply (stop_next (fun c => mem_char c (b "0123456789") || Ascii.eqb c ".")%bool).
      + intros d [Hdd| ->]; [rewrite (digit_back d Hdd); reflexivity|apply orb_true_r].
      + pose proof (DS _ _ _ E3) as HH. unfold lpeek_is in Edot. destruct (rest s3); auto. now rewrite HH, Edot. }
  destruct (isalpha c || Ascii.eqb c "_")%bool eqn:Hid.
  { unfold lexIdentifier. destruct (consume 1 s) as [s3| |]; cbn [bind]; try discriminate. intros [= Ek _ _ <-].
    assert (HS : ~ next id_char (rest (consumeWhile isIdentifierChar s3))).
    { destruct (consumeWhile_spec isIdentifierChar s3) as (w & _ & _ & Hs). exact (stop_next _ _ _ id_back Hs). }
    destruct (maybeKW_spec (slice_between s (consumeWhile isIdentifierChar s3))) as [(Hk & _ & Hkw)|[Hk _]];
      rewrite Ek in Hk.
    - apply FIN; auto.
      all: intros ->; simpl in Hk; intuition discriminate.
    - subst k. apply FIN; try (intros _; exact HS); intros Ex; rewrite Hk in Ex; discriminate Ex. }
  destruct (trySPath c s) as [[o5 s5]| |]; cbn [bind]; try discriminate. destruct o5.
  { intros [= <- _ _ <-]. apply FIN; try discriminate; simpl; intuition discriminate. }
  destruct (lexOp c s) as [[k6 s6]| |] eqn:EO; cbn [bind]; try discriminate.
  destruct (lexOp_kind c s k6 s6 EO) as (K1 & K2 & K3 & K4 & K5).
  destruct (tkind_beq k6 tok_unknown).
  - destruct (consume 1 s6) as [s7| |]; cbn [bind]; try discriminate. intros [= <- _ _ <-]. apply FIN; tauto.
  - intros [= <- _ _ <-]. apply FIN; tauto.
Qed.

(** ** Strings *)
Lemma dollars_nil : dollars_escaped [].
Proof. intros x y H. destruct x; discriminate. Qed.

Lemma dollars_cons c w : dollars_escaped w -> (c = "$"%char -> ~ begins (b "{") w) -> dollars_escaped (c :: w).
Proof.
  intros H1 H2 x y E. destruct x as [|d x]; simpl in E; injection E as -> E.
  - exfalso. apply (H2 eq_refl). now exists y.
  - destruct (H1 x y E) as [x' ->]. now exists (d :: x').
Qed.

Lemma dollars_triple w : dollars_escaped w -> dollars_escaped (b "$${" ++ w).
Proof.
  intros H1 x y E. destruct x as [|c [|d [|e x]]]; simpl in E; try discriminate.
  - injection E as <- _. now exists [].
  - injection E as <- <- <- E. destruct (H1 x y E) as [x' ->]. now exists (b "$${" ++ x').
Qed.

Lemma dover_nil q : dollars_over [] q.
Proof. intros _ [[|? x] H]; discriminate. Qed.
Lemma dover_cons c w q : dollars_over w q -> (c = "$"%char -> w = [] -> ~ begins (b "${") q) -> dollars_over (c :: w) q.
Proof.
  intros H1 H2 B [x E]. destruct x as [|d x]; cbn in E; injection E as -> E.
  - now apply (H2 eq_refl E).
  - apply (H1 B). now exists x.
Qed.
Lemma dover_triple w q : dollars_over w q -> dollars_over (b "$${" ++ w) q.
Proof.
  intros H1 B [x E]. destruct x as [|c [|d [|e x]]]; cbn in E; try discriminate E.
  injection E as _ _ _ E. apply (H1 B). now exists x.
Qed.
Lemma qover_nil q : quotes_over [] q.
Proof. intros x y _. cbn. lia. Qed.
Lemma qover_cons c w q : quotes_over w q -> (c = "'"%char -> ~ begins (b "'") (w ++ q)) -> quotes_over (c :: w) q.
Proof.
  intros H1 H2 x y E. destruct x as [|d x]; cbn in E; injection E as -> E.
  - exfalso. apply (H2 eq_refl). now exists y.
  - specialize (H1 x y E). cbn. lia.
Qed.
Lemma qover_triple w q : quotes_over w q -> quotes_over (b "$${" ++ w) q.
Proof.
  intros H1 x y E. destruct x as [|c [|d [|e x]]]; cbn in E; try discriminate E.
  - injection E as _ _ _ E. specialize (H1 x y E). cbn. lia.
Qed.

Lemma strpart_long r p w q : strpart_aux r p = (advs w p, q) -> r = w ++ q ->
  dollars_escaped w /\ dollars_over w q /\ (q = [] \/ begins (b """") q \/ begins (b "\") q \/ begins (b "${") q).
Proof.
  remember (List.length r) as n eqn:Hn. revert r p w q Hn.
  induction n as [n IH] using lt_wf_ind. intros r p w q Hn E Hr.
  assert (STOP : forall q', (p, r) = (advs w p, q') -> q' = q -> w = [] /\ q = r).
  { intros q' [= _ <-] <-. split; [|reflexivity]. apply (f_equal (@List.length _)) in Hr.
    rewrite app_length in Hr. destruct w; [reflexivity|simpl in Hr; lia]. }
  assert (STEP : forall x r1, x <> [] -> r = x ++ r1 -> strpart_aux r1 (advs x p) = (advs w p, q) ->
     exists w1, w = x ++ w1 /\ r1 = w1 ++ q /\ dollars_escaped w1 /\ dollars_over w1 q /\
       (q = [] \/ begins (b """") q \/ begins (b "\") q \/ begins (b "${") q)).
  { intros x r1 Hx Hr1 E1. destruct (strpart_spec r1 (advs x p)) as (w1 & q1 & Hq & E2 & _).
    rewrite E2 in E1. injection E1 as E1 ->.
    assert (w = x ++ w1).
    { apply (app_inv_tail q). rewrite <- Hr, Hr1, Hq. now rewrite app_assoc. }
    exists w1. split; [assumption|]. split; [assumption|]. apply (IH (List.length r1)) with (r := r1) (p := advs x p); auto.
    subst n. rewrite Hr1, app_length. destruct x; [congruence|simpl; lia]. }
  destruct r as [|c r1].
  { symmetry in Hr. apply app_eq_nil in Hr as [-> ->]. split; [apply dollars_nil|]. split; [apply dover_nil|now left]. }
  cbn [strpart_aux] in E.
  destruct (Ascii.eqb c "\") eqn:E1.
  { destruct (STOP q E eq_refl) as [-> ->]. apply Ascii.eqb_eq in E1. subst c.
    split; [apply dollars_nil|]. split; [apply dover_nil|]. right. right. left. now exists r1. }
  destruct (Ascii.eqb c """") eqn:E2.
  { destruct (STOP q E eq_refl) as [-> ->]. apply Ascii.eqb_eq in E2. subst c.
    split; [apply dollars_nil|]. split; [apply dover_nil|]. right. left. now exists r1. }
  assert (ONE : strpart_aux r1 (adv c p) = (advs w p, q) -> (c = "$"%char -> ~ begins (b "{") r1) -> (c = "$"%char -> ~ begins (b "${") r1) ->
    dollars_escaped w /\ dollars_over w q /\ (q = [] \/ begins (b """") q \/ begins (b "\") q \/ begins (b "${") q)).
  { intros Ex Hx Hy. destruct (STEP [c] r1 ltac:(discriminate) eq_refl Ex) as (w1 & -> & H1 & H2 & H4 & H3).
    split; [|split; [apply dover_cons; [exact H4|]; intros Hc -> Hb; apply (Hy Hc); now rewrite H1|exact H3]]. apply dollars_cons; [exact H2|]. intros Hc [y Ey]. apply (Hx Hc). rewrite H1, Ey.
    exists (y ++ q). now rewrite app_assoc. }
  destruct r1 as [|c2 [|c3 r3]].
  - apply ONE; [exact E| |]; intros _ [y Hy]; discriminate.
  - destruct (Ascii.eqb c "$" && Ascii.eqb c2 "{")%bool eqn:Ed.
    + destruct (STOP q E eq_refl) as [-> ->]. apply andb_true_iff in Ed as [Ea Eb]. apply Ascii.eqb_eq in Ea, Eb.
      subst. split; [apply dollars_nil|]. split; [apply dover_nil|]. right. right. right. now exists [].
    + apply ONE; [exact E| |]; [intros -> [y [= -> _]]; discriminate|intros _ [y Hy]; discriminate Hy].
  - destruct (Ascii.eqb c "$" && Ascii.eqb c2 "$" && Ascii.eqb c3 "{")%bool eqn:Et.
    + apply andb_true_iff in Et as [Et Ec]. apply andb_true_iff in Et as [Ea Eb].
      apply Ascii.eqb_eq in Ea, Eb, Ec. subst.
      destruct (STEP (b "$${") r3 ltac:(discriminate) eq_refl E) as (w1 & -> & H1 & H2 & H4 & H3).
      split; [now apply dollars_triple|]. split; [now apply dover_triple|exact H3].
    + destruct (Ascii.eqb c "$" && Ascii.eqb c2 "{")%bool eqn:Ed.
      * destruct (STOP q E eq_refl) as [-> ->]. apply andb_true_iff in Ed as [Ea Eb]. apply Ascii.eqb_eq in Ea, Eb.
        subst. split; [apply dollars_nil|]. split; [apply dover_nil|]. right. right. right. now exists (c3 :: r3).
      * apply ONE; [exact E| |]; [intros -> [y [= -> _]]; discriminate|intros -> [y [= -> -> _]]; discriminate Et].
Qed.

Lemma indpart_long r p w q : indpart_aux r p = (advs w p, q) -> r = w ++ q ->
  dollars_escaped w /\ dollars_over w q /\ quotes_over w q /\ (q = [] \/ begins (b "''") q \/ begins (b "${") q).
Proof.
  remember (List.length r) as n eqn:Hn. revert r p w q Hn.
  induction n as [n IH] using lt_wf_ind. intros r p w q Hn E Hr.
  assert (STOP : forall q', (p, r) = (advs w p, q') -> q' = q -> w = [] /\ q = r).
  { intros q' [= _ <-] <-. split; [|reflexivity]. apply (f_equal (@List.length _)) in Hr.
    rewrite app_length in Hr. destruct w; [reflexivity|simpl in Hr; lia]. }
  assert (STEP : forall x r1, x <> [] -> r = x ++ r1 -> indpart_aux r1 (advs x p) = (advs w p, q) ->
     exists w1, w = x ++ w1 /\ r1 = w1 ++ q /\ dollars_escaped w1 /\ dollars_over w1 q /\ quotes_over w1 q /\
       (q = [] \/ begins (b "''") q \/ begins (b "${") q)).
  { intros x r1 Hx Hr1 E1. destruct (indpart_spec r1 (advs x p)) as (w1 & q1 & Hq & E2 & _).
    rewrite E2 in E1. injection E1 as E1 ->.
    assert (w = x ++ w1).
    { apply (app_inv_tail q). rewrite <- Hr, Hr1, Hq. now rewrite app_assoc. }
    exists w1. split; [assumption|]. split; [assumption|]. apply (IH (List.length r1)) with (r := r1) (p := advs x p); auto.
    subst n. rewrite Hr1, app_length. destruct x; [congruence|simpl; lia]. }
  destruct r as [|c r1].
  { symmetry in Hr. apply app_eq_nil in Hr as [-> ->]. split; [apply dollars_nil|]. split; [apply dover_nil|]. split; [apply qover_nil|now left]. }
  cbn [indpart_aux] in E.
  assert (ONE : indpart_aux r1 (adv c p) = (advs w p, q) -> (c = "$"%char -> ~ begins (b "{") r1) -> (c = "$"%char -> ~ begins (b "${") r1) -> (c = "'"%char -> ~ begins (b "'") r1) ->
    dollars_escaped w /\ dollars_over w q /\ quotes_over w q /\ (q = [] \/ begins (b "''") q \/ begins (b "${") q)).
  { intros Ex Hx Hy Hz. destruct (STEP [c] r1 ltac:(discriminate) eq_refl Ex) as (w1 & -> & H1 & H2 & H4 & H5 & H3).
    split; [|split; [apply dover_cons; [exact H4|]; intros Hc -> Hb; apply (Hy Hc); now rewrite H1|split; [|exact H3]]].
    2:{ apply qover_cons; [exact H5|]. intros Hc. rewrite <- H1. now apply Hz. }
    apply dollars_cons; [exact H2|]. intros Hc [y Ey]. apply (Hx Hc). rewrite H1, Ey.
    exists (y ++ q). now rewrite app_assoc. }
  destruct r1 as [|c2 r2].
  { apply ONE; [exact E| | |]; intros _ [y Hy]; discriminate. }
  destruct (Ascii.eqb c "'" && Ascii.eqb c2 "'")%bool eqn:Eq.
  { destruct (STOP q E eq_refl) as [-> ->]. apply andb_true_iff in Eq as [Ea Eb]. apply Ascii.eqb_eq in Ea, Eb.
    subst. split; [apply dollars_nil|]. split; [apply dover_nil|]. split; [apply qover_nil|]. right. left. now exists r2. }
  destruct r2 as [|c3 r3].
  - destruct (Ascii.eqb c "$" && Ascii.eqb c2 "{")%bool eqn:Ed.
    + destruct (STOP q E eq_refl) as [-> ->]. apply andb_true_iff in Ed as [Ea Eb]. apply Ascii.eqb_eq in Ea, Eb.
      subst. split; [apply dollars_nil|]. split; [apply dover_nil|]. split; [apply qover_nil|]. right. right. now exists [].
    + apply ONE; [exact E| | |]; [intros -> [y [= -> _]]; discriminate|intros _ [y Hy]; discriminate Hy|intros -> [y [= -> _]]; discriminate Eq].
  - destruct (Ascii.eqb c "$" && Ascii.eqb c2 "$" && Ascii.eqb c3 "{")%bool eqn:Et.
    + apply andb_true_iff in Et as [Et Ec]. apply andb_true_iff in Et as [Ea Eb].
      apply Ascii.eqb_eq in Ea, Eb, Ec. subst.
      destruct (STEP (b "$${") r3 ltac:(discriminate) eq_refl E) as (w1 & -> & H1 & H2 & H4 & H5 & H3).
      split; [now apply dollars_triple|]. split; [now apply dover_triple|]. split; [now apply qover_triple|exact H3].
    + destruct (Ascii.eqb c "$" && Ascii.eqb c2 "{")%bool eqn:Ed.
      * destruct (STOP q E eq_refl) as [-> ->]. apply andb_true_iff in Ed as [Ea Eb]. apply Ascii.eqb_eq in Ea, Eb.
        subst. split; [apply dollars_nil|]. split; [apply dover_nil|]. split; [apply qover_nil|]. right. right. now exists (c3 :: r3).
      * apply ONE; [exact E| | |]; [intros -> [y [= -> _]]; discriminate|intros -> [y [= -> -> _]]; discriminate Et|intros -> [y [= -> _]]; discriminate Eq].
Qed.

Lemma finish_view k v s s' : mv v s s' -> tview (finishToken k s s') = v.
Proof. intros M. rewrite (mv_finish _ _ _ _ M). reflexivity. Qed.

Lemma lexString_long s t s' : lexString s = Ok (t, s') -> longest PS_String (tk t) (tview t) (rest s').
Proof.
  unfold lexString, lpeek, longest. destruct (rest s) as [|c r] eqn:Hr.
  { intros [= <- <-]. discriminate. }
  destruct (Ascii.eqb c """").
  { destruct (consume 1 s) as [s1| |]; cbn [bind]; try discriminate. intros [= <- <-]. discriminate. }
  destruct (Ascii.eqb c "\").
  { destruct (consume 2 s) as [s1| |]; cbn [bind]; try discriminate. intros [= <- <-]. discriminate. }
  destruct (consumePrefix (b "${") s) as [[dc s1]| |]; cbn [bind]; try discriminate.
  destruct dc. { intros [= <- <-]. discriminate. }
  rewrite <- Hr. destruct (strpart_spec (rest s) (cur s)) as (w & q & Hw & E & _). rewrite E. intros [= <- <-].
  assert (M : mv w s (Lst (advs w (cur s)) q (diags s))).
  { apply mv0_mv. now repeat split. }
  rewrite (finish_view _ _ _ _ M). intros _. cbn [rest]. eapply strpart_long; eauto.
Qed.

Lemma lexIndString_long s t s' : lexIndString s = Ok (t, s') -> longest PS_IndString (tk t) (tview t) (rest s').
Proof.
  unfold lexIndString, longest. destruct (eof s).
  { intros [= <- <-]. split; discriminate. }
  destruct (consumePrefix (b "''") s) as [[q s1]| |]; cbn [bind]; try discriminate. destruct q.
  - destruct (consumePrefix_spec (b "$") s1) as [(q1 & E1 & ->)|(E1 & ->)]; cbn [bind].
    { intros [= <- <-]. split; discriminate. }
    destruct (consumePrefix_spec (b "'") s1) as [(q2 & E2 & ->)|(E2 & ->)]; cbn [bind].
    { intros [= <- <-]. split; discriminate. }
    destruct (consumePrefix_spec (b "\") s1) as [(q3 & E3 & ->)|(E3 & ->)]; cbn [bind].
    { match goal with |- bind (consume 1 ?x) _ = _ -> _ => destruct (consume 1 x); cbn [bind]; try discriminate end.
      intros [= <- <-]. split; discriminate. }
    intros [= <- <-]. split; [discriminate|]. intros _. destruct (rest s1) as [|c r]; [auto|]. simpl.
    intros [Hc|[Hc|[Hc|[]]]]; subst c; [now apply (E1 r)|now apply (E2 r)|now apply (E3 r)].
  - destruct (consumePrefix (b "${") s) as [[dc s2]| |]; cbn [bind]; try discriminate.
    destruct dc. { intros [= <- <-]. split; discriminate. }
    destruct (indpart_spec (rest s) (cur s)) as (w & r & Hw & E & _). rewrite E. intros [= <- <-].
    assert (M : mv w s (Lst (advs w (cur s)) r (diags s))).
    { apply mv0_mv. now repeat split. }
    rewrite (finish_view _ _ _ _ M). split; [|discriminate]. intros _. cbn [rest]. eapply indpart_long; eauto.
Qed.

Lemma lexPath_long s t s' : lexPath s = Ok (t, s') -> longest PS_Path (tk t) (tview t) (rest s').
Proof.
  unfold lexPath, longest. unfold eof. destruct (rest s) as [|c r] eqn:Hr.
  { intros [= <- <-]. rewrite Hr. split; [intros _ []|intros _ [y Hy]; discriminate]. }
  destruct (consumePrefix_spec (b "${") s) as [(q1 & E1 & ->)|(E1 & ->)]; cbn [bind].
  { intros [= <- <-]. split; [intros [H|H]|intros H]; discriminate. }
  assert (W : forall s0, ~ next (fun c => path_char c \/ c = "/"%char) (rest (consumeWhile isPathOrSlash s0))).
  { intros s0. destruct (consumeWhile_spec isPathOrSlash s0) as (w & _ & _ & Hs). exact (stop_next _ _ _ path_slash_back Hs). }
  destruct (peekPrefix (b "~/") s).
  { destruct (consume 2 s) as [s1| |]; cbn [bind]; try discriminate. intros [= <- <-]. split; [|discriminate]. intros _. apply W. }
  unfold lpeek. rewrite Hr. destruct (isPathOrSlash c) eqn:Ec; intros [= <- <-].
  - split; [intros _; apply W|discriminate].
  - split; [intros _|intros _ [y Hy]; now apply (E1 y)]. rewrite Hr.
    apply (stop_next isPathOrSlash); [exact path_slash_back|exact Ec].
Qed.

Lemma longest_mode m s t s' : lex_mode m s = Ok (t, s') -> longest m (tk t) (tview t) (rest s').
Proof.
  destruct m; cbn [lex_mode].
  - unfold lex. destruct (consumeTrivia s) as [s1| |]; cbn [bind]; try discriminate. apply lexToken_long.
  - apply lexString_long.
  - apply lexIndString_long.
  - apply lexPath_long.
Qed.
