(** For whole documents: which parsing functions report on names, and the rules for what has been reported so far. *)
From Verif Require Import Base Diag LexModel LexProofs LexLongDiags AstModel PSupModel SemaModel ParseModel ParseSpec ParseTree SemaSpec SemaProofs IdTree DocSpec.

(** ** [adds v m]: the new diagnostics of [m] are of the sort [v] *)
Definition adds {A} (v : diag -> Prop) (m : P A) : Prop := forall s a s', m s = Ok (a, s') ->
  exists new, diags (plex s') = new ++ diags (plex s) /\ Forall v new.
Definition names (d : diag) : Prop := about_names d = true.
Definition quiet (d : diag) : Prop := about_names d = false.
Definition sets (d : diag) : Prop := d_kind d = DK_DuplicatedAttrName \/ d_kind d = DK_DynamicInherit \/ d_kind d = DK_MergeDiffRec.
Lemma a_same {A} v (m : P A) : (forall s a s', m s = Ok (a, s') -> diags (plex s') = diags (plex s)) -> adds v m.
Proof. intros H s a s' E. exists []. split; [now apply H in E|constructor]. Qed.
Lemma a_ret {A} v (a : A) : adds v (ret a).
Proof. apply a_same. intros s x s' H. now injection H as <- <-. Qed.
Lemma a_crash {A} v w : adds v (@crash A w).
Proof. intros s x s' H. discriminate. Qed.
Lemma a_lift {A} v (r : res A) : adds v (lift r).
Proof. apply a_same. intros s x s' H. unfold lift in H. destruct r; try discriminate. now injection H as <- <-. Qed.
Lemma a_fresh v : adds v fresh.
Proof. apply a_same. intros s x s' H. now injection H as <- <-. Qed.
Lemma a_emit (v : diag -> Prop) d : v d -> adds v (emit d).
Proof. intros Hd s x s' H. injection H as <- <-. exists [d]. split; [reflexivity|constructor; [exact Hd|constructor]]. Qed.
Lemma a_bind {A C} v (m : P A) (k : A -> P C) : adds v m -> (forall a, adds v (k a)) -> adds v (pbind m k).
Proof.
  intros H K s x s' R. unfold pbind in R. destruct (m s) as [[y s1]| |] eqn:F; try discriminate.
  destruct (H _ _ _ F) as (n1 & D1 & F1). destruct (K _ _ _ _ R) as (n2 & D2 & F2). exists (n2 ++ n1).
  rewrite D2, D1, app_assoc. split; [reflexivity|now apply Forall_app].
Qed.
Create HintDb adds.
#[export] Hint Resolve a_ret a_crash a_lift a_fresh : adds.
Ltac A1 :=
  match goal with
  | |- adds _ _ => solve [auto with adds nocore]
  | |- adds _ (emit _) => apply a_emit; solve [reflexivity|right; right; reflexivity|right; left; reflexivity|left; reflexivity]
  | |- adds _ (pbind _ _) => apply a_bind; [|intros ?]
  | |- adds _ (match ?x with _ => _ end) => destruct x
  | |- adds _ (let _ := _ in _) => cbv zeta
  end.
Ltac A := repeat A1.

(** *** the semantic actions report on names only *)
Lemma a_fix1 v m e : adds v (fix1 m e).
Proof. unfold fix1. A. Qed.
#[export] Hint Resolve a_fix1 : adds.
Lemma a_dup n r p : adds sets (dupAttr n r p).
Proof. unfold dupAttr. A. Qed.
Lemma a_checkRec x y : adds sets (checkAttrRecursiveForMerge x y).
Proof. unfold checkAttrRecursiveForMerge. A. Qed.
#[export] Hint Resolve a_dup a_checkRec : adds.
Lemma a_mergeStatic y : forall x, adds sets (mergeStatic x y).
Proof. induction y as [|[k v] y IH]; intros x; cbn [mergeStatic]; repeat (A1 || apply IH). Qed.
#[export] Hint Resolve a_mergeStatic : adds.
Lemma a_insertAttr sa n e k : adds sets (insertAttr sa n e k).
Proof. unfold insertAttr, mergeAttrSets. A. Qed.
Lemma a_nested n i : adds sets (mkNested n i).
Proof. unfold mkNested. A. Qed.
#[export] Hint Resolve a_insertAttr a_nested : adds.
Lemma a_addAttr p : forall sa e, adds sets (addAttr sa p e).
Proof.
  induction p as [|n p IH]; intros sa e; cbn [addAttr]; [A|]. destruct p as [|n2 p]; [A|].
  set (p2 := n2 :: p) in *. clearbody p2. repeat (A1 || apply IH).
Qed.
Lemma a_desugar n e : adds sets (desugarInheritExpr n e).
Proof. unfold desugarInheritExpr. A. Qed.
Lemma a_lowerName sa n v k : adds sets (lowerInheritName sa n v k).
Proof. unfold lowerInheritName. A. Qed.
#[export] Hint Resolve a_addAttr a_desugar a_lowerName : adds.
Lemma a_lowerInherit ns : forall sa e, adds sets (lowerInherit sa ns e).
Proof. induction ns as [|n ns IH]; intros sa e; cbn [lowerInherit]; repeat (A1 || apply IH). Qed.
#[export] Hint Resolve a_lowerInherit : adds.
Lemma a_lowerBinds bs : forall sa, adds sets (lowerBinds sa bs).
Proof. induction bs as [|n bs IH]; intros sa; cbn [lowerBinds]; repeat (A1 || apply IH). Qed.
#[export] Hint Resolve a_lowerBinds : adds.
Lemma a_sets r bd rc : adds sets (onExprAttrs r bd rc).
Proof. unfold onExprAttrs. A. Qed.
Lemma a_weak {T} (v w : diag -> Prop) (m : P T) : (forall d, v d -> w d) -> adds v m -> adds w m.
Proof. intros H K s a s' E. destruct (K _ _ _ E) as (new & D & F). exists new. split; [exact D|]. eapply Forall_impl; [|exact F]. exact H. Qed.
Lemma a_onExprAttrs r bd rc : adds names (onExprAttrs r bd rc).
Proof. eapply a_weak; [|apply a_sets]. intros d H. unfold names, about_names. destruct H as [->|[->| ->]]; reflexivity. Qed.
Lemma a_sep l : forall f, adds names (checkFormalSep f l).
Proof. induction l as [|n l IH]; intros f; cbn [checkFormalSep]; repeat (A1 || apply IH). Qed.
Lemma a_removeFormal v c f l : adds v (removeFormal c f l).
Proof. unfold removeFormal. A. Qed.
#[export] Hint Resolve a_sep a_removeFormal : adds.
Lemma a_ell src la l : forall f, adds names (checkFormalEllipsis_f src f la l).
Proof.
  induction l as [|n l IH]; intros f; cbn [checkFormalEllipsis_f]; [A|]. destruct l; [A|]. pose proof IH as IH'. repeat (A1 || apply IH').
Qed.
Lemma a_empty l : adds names (checkFormalEmpty l).
Proof. induction l as [|n l IH]; cbn [checkFormalEmpty]; [A|]. destruct l; [A|]. pose proof IH as IH'. repeat (A1 || apply IH'). Qed.
Lemma a_dedup l : forall d, adds names (dedupFormal d l).
Proof. induction l as [|n l IH]; intros d; cbn [dedupFormal]; repeat (A1 || apply IH). Qed.
#[export] Hint Resolve a_ell a_empty a_dedup : adds.
Lemma a_ellipsis src l : adds names (checkFormalEllipsis src l).
Proof. unfold checkFormalEllipsis. A. Qed.
#[export] Hint Resolve a_ellipsis : adds.
Lemma a_onFormals src r fv : adds names (onFormals src r fv).
Proof. unfold onFormals. A. Qed.
Lemma a_onLambdaArg r i f : adds names (onLambdaArg r i f).
Proof. unfold onLambdaArg. A. Qed.

(** *** the rest does not *)
Lemma a_passert c w : adds quiet (passert c w).
Proof. unfold passert. A. Qed.
Lemma a_lastR : adds quiet lastR.
Proof. apply a_same. intros s a s' H. unfold lastR in H. destruct (plast s); [|discriminate]. now injection H as <- <-. Qed.
#[export] Hint Resolve a_passert a_lastR : adds.
Lemma a_assertLast : adds quiet assertLast.
Proof. unfold assertLast. A. Qed.
Lemma a_toLast c : adds quiet (toLast c).
Proof. unfold toLast. A. Qed.
#[export] Hint Resolve a_assertLast a_toLast : adds.
Lemma lex_kinds md l t l' : lex_mode md l = Ok (t, l') ->
  exists new, diags l' = new ++ diags l /\ Forall quiet new.
Proof.
  intros E. destruct md; cbn [lex_mode] in E.
  2, 3, 4: exists []; split; [|constructor].
  2: { revert E. unfold lexString, lpeek. destruct (rest l) as [|c r] eqn:Hr; [now intros [= _ <-]|].
       destruct (Ascii.eqb c """"). { rewrite (consume1_spec _ _ _ Hr). now intros [= _ <-]. }
       destruct (Ascii.eqb c "\"). { unfold LexModel.consume. rewrite Hr. destruct r as [|c2 r]; [discriminate|]. cbn. now intros [= _ <-]. }
       destruct (consumePrefix_spec (b "${") l) as [(q & _ & ->)|(_ & ->)]; cbn [bind]; [now intros [= _ <-]|].
       rewrite <- Hr. destruct (strpart_aux (rest l) (cur l)) as [p r']. now intros [= _ <-]. }
  2: { revert E. unfold lexIndString. destruct (eof l); [now intros [= _ <-]|].
       destruct (consumePrefix_spec (b "''") l) as [(q & _ & ->)|(_ & ->)]; cbn [bind].
       - set (s1 := Lst _ _ _).
         destruct (consumePrefix_spec (b "$") s1) as [(q1 & _ & ->)|(_ & ->)]; cbn [bind]; [now intros [= _ <-]|].
         destruct (consumePrefix_spec (b "'") s1) as [(q2 & _ & ->)|(_ & ->)]; cbn [bind]; [now intros [= _ <-]|].
         destruct (consumePrefix_spec (b "\") s1) as [(q3 & _ & ->)|(_ & ->)]; cbn [bind]; [|now intros [= _ <-]].
         destruct q3 as [|c3 q3]; [discriminate|]. rewrite (consume1_spec c3 q3) by reflexivity. cbn [bind]. now intros [= _ <-].
       - destruct (consumePrefix_spec (b "${") l) as [(q1 & _ & ->)|(_ & ->)]; cbn [bind]; [now intros [= _ <-]|].
         destruct (indpart_aux (rest l) (cur l)) as [p r']. now intros [= _ <-]. }
  2: { revert E. unfold lexPath. destruct (eof l); [now intros [= _ <-]|].
       destruct (consumePrefix_spec (b "${") l) as [(q & _ & ->)|(_ & ->)]; cbn [bind]; [now intros [= _ <-]|].
       destruct (peekPrefix (b "~/") l) eqn:Ep.
       - apply starts_with_spec in Ep as [q Hq]. change (LexModel.consume 2 l) with (LexModel.consume (List.length (b "~/")) l). rewrite (consume_spec (b "~/") q l Hq). cbn [bind].
         intros [= _ <-]. match goal with |- diags (consumeWhile _ ?x) = _ => destruct (consumeWhile_spec isPathOrSlash x) as (w & (_ & _ & D) & _) end. exact D.
       - destruct (lpeek l) as [c|]; [|now intros [= _ <-]]. destruct (isPathOrSlash c); [|now intros [= _ <-]].
         intros [= _ <-]. destruct (consumeWhile_spec isPathOrSlash l) as (w & (_ & _ & D) & _). exact D. }
  unfold lex in E. destruct (consumeTrivia l) as [l1| |] eqn:E1; cbn [bind] in E; try discriminate.
  apply trivia_told in E1; [|lia].
  assert (T1 : exists new, diags l1 = new ++ diags l /\ Forall quiet new).
  { destruct E1 as [(D1 & _)|(w & body & _ & _ & _ & D1)]; rewrite D1; [exists []|exists [comment_diag w body (cur l)]]; split; repeat constructor. }
  assert (T2 : exists new, diags l' = new ++ diags l1 /\ Forall quiet new).
  { destruct (token_told _ _ _ E) as [(K & D2)|(K & d & w & f & ex & nz & ne & V & TR & C & R & Hw & Hf & X & Z & D2)]; rewrite D2.
    - exists []. auto.
    - exists (nz ++ ne). rewrite app_assoc. split; [reflexivity|]. apply Forall_app. split.
      + destruct Z as [(c & w' & _ & _ & ->)|(_ & ->)]; repeat constructor.
      + destruct X as [(_ & ->)|(x & sg & dd & _ & _ & _ & _ & [(_ & ->)|(_ & ->)])]; repeat constructor. }
  destruct T1 as (n1 & D1 & F1), T2 as (n2 & D2 & F2). exists (n2 ++ n1). rewrite D2, D1, <- app_assoc. split; [reflexivity|now apply Forall_app].
Qed.
Lemma a_fill n : adds quiet (fill n).
Proof.
  induction n as [|n IH]; cbn [fill]; [A|]. intros s a s' H. destruct (pmodes s); [discriminate|].
  destruct (lex_mode p (plex s)) as [[t l0]| |] eqn:E; try discriminate. apply IH in H as (n2 & D2 & F2). apply lex_kinds in E as (n1 & D1 & F1).
  cbn [plex set_buf set_lex] in D2. exists (n2 ++ n1). rewrite D2, D1, app_assoc. split; [reflexivity|now apply Forall_app].
Qed.
Lemma a_peek n : adds quiet (peek n).
Proof.
  intros s a s' H. unfold peek in H. destruct (fill _ s) as [[u s1]| |] eqn:E; try discriminate. apply a_fill in E.
  destruct (nth_error (pbuf s1) n); [|discriminate]. now injection H as <- <-.
Qed.
#[export] Hint Resolve a_peek : adds.
Lemma a_peekk n : adds quiet (peekk n).
Proof. unfold peekk. A. Qed.
Lemma a_lCur : adds quiet lCur.
Proof. unfold lCur. A. Qed.
Lemma a_popBuf : adds quiet popBuf.
Proof. apply a_same. intros s a s' H. unfold popBuf in H. destruct (pbuf s); [discriminate|]. now injection H as <- <-. Qed.
#[export] Hint Resolve a_peekk a_lCur a_popBuf : adds.
Lemma a_consume : adds quiet consume.
Proof.
  intros s a s' H. unfold consume in H. destruct (pbuf s).
  - revert H. assert (Z : adds quiet (do! peek 0 in do! popBuf in ret tt)) by A. apply Z.
  - revert H. assert (Z : adds quiet (do! popBuf in ret tt)) by A. apply Z.
Qed.
#[export] Hint Resolve a_consume : adds.
Lemma a_withSync {T} v k (m : P T) : adds v m -> adds v (withSync k m).
Proof.
  intros H s a s' E. unfold withSync in E. destruct (m _) as [[x s1]| |] eqn:F; try discriminate. apply H in F.
  injection E as <- <-. exact F.
Qed.
Lemma a_unknown f : forall c, adds quiet (unknown_loop f c).
Proof.
  induction f as [|f IH]; intros c; cbn [unknown_loop]; [intros s a s' H; discriminate|]. apply a_bind; [A|]. intros t s a s' H.
  destruct (_ || _)%bool; [injection H as <- <-; exists []; auto|]. revert H. assert (Z : adds quiet (do! consume in unknown_loop f true)) by (A; apply IH). apply Z.
Qed.
#[export] Hint Resolve a_unknown : adds.
Lemma a_unk src : adds quiet (consumeAsUnknown src).
Proof. unfold consumeAsUnknown. A. Qed.
#[export] Hint Resolve a_unk : adds.
Lemma a_rm src : adds quiet (removeUnexpected src).
Proof. unfold removeUnexpected. A. Qed.
#[export] Hint Resolve a_rm : adds.
Lemma a_ins : adds quiet (fun s => match plast s with Some l => Ok (rcur (trange l), s) | None => lCur s end).
Proof. intros s a s' H. destruct (plast s); [injection H as <- <-; exists []; auto|]. now apply a_lCur in H. Qed.
#[export] Hint Resolve a_ins : adds.
Lemma a_expect src k : adds quiet (expect src k).
Proof. unfold expect. apply a_withSync. A. Qed.
#[export] Hint Resolve a_expect : adds.
Lemma a_reset src : adds quiet (resetLookAheadBuf src).
Proof.
  apply a_same. intros s a s' H. unfold resetLookAheadBuf in H. destruct (pbuf s); [now injection H as <- <-|].
  unfold setCur in H. destruct (Nat.leb _ _); try discriminate. now injection H as <- <-.
Qed.
#[export] Hint Resolve a_reset : adds.
Lemma a_push src m : adds quiet (pushState src m).
Proof. unfold pushState. A. apply a_same. intros s x s' H. now injection H as <- <-. Qed.
Lemma a_pop src : adds quiet (popState src).
Proof. unfold popState. A. apply a_same. intros s x s' H. destruct (pmodes s); [discriminate|]. now injection H as <- <-. Qed.
#[export] Hint Resolve a_push a_pop : adds.
Lemma a_diagNull w : adds quiet (diagNullExpr w).
Proof. unfold diagNullExpr. A. Qed.
#[export] Hint Resolve a_diagNull : adds.
Lemma a_orNull e w : adds quiet (orNull e w).
Proof. unfold orNull. A. Qed.
#[export] Hint Resolve a_orNull : adds.

(** ** the nodes below a list of nodes *)
Definition under (l : list node) (m : node) : Prop := exists n, In n l /\ node_of n m.
Lemma under_nil m : under [] m <-> False.
Proof. split; [intros (n & [] & _)|intros []]. Qed.
Lemma under_cons n l m : under (n :: l) m <-> node_of n m \/ under l m.
Proof.
  split.
  - intros (x & [<-|I] & H); [now left|right; now exists x].
  - intros [H|(x & I & H)]; [exists n|exists x]; split; auto; [now left|now right].
Qed.
Lemma under_app l l' m : under (l ++ l') m <-> under l m \/ under l' m.
Proof.
  split.
  - intros (x & I & H). apply in_app_or in I as [I|I]; [left|right]; now exists x.
  - intros [(x & I & H)|(x & I & H)]; exists x; split; auto; apply in_or_app; auto.
Qed.
Lemma node_iff n m : node_of n m <-> m = n \/ under (present (children n)) m.
Proof.
  split.
  - intros H. inversion H as [|? c ? I H']; subst; [now left|]. right. now exists c.
  - intros [->|(c & I & H)]; [constructor|]. now apply (node_child n c m).
Qed.
(** a node that the semantic actions do not make *)
Definition plain (n : node) : Prop :=
  match n with NAttrs _ _ _ _ _ _ | NFormals _ _ _ _ | NLambdaArg _ _ _ _ => False | _ => True end.
(** the two lists hold the same nodes, except that the second may hold more plain ones *)
Definition covers (C C' : list node) : Prop :=
  (forall m, under C m -> under C' m) /\ (forall m, under C' m -> under C m \/ plain m).

(** ** what has been reported so far *)
Section Rules.
Variable src : bytes.
(** the semantic action that made [m], and what it reported *)
Definition built (m : node) (news : list diag) : Prop :=
  match m with
  | NAttrs _ r bd rc _ _ => exists s s', onExprAttrs r bd rc s = Ok (m, s') /\ diags (plex s') = rev news ++ diags (plex s)
  | NFormals _ r fv _ => exists s s', onFormals src r fv s = Ok (m, s') /\ diags (plex s') = rev news ++ diags (plex s)
  | NLambdaArg _ r i f => exists s s', onLambdaArg r i f s = Ok (m, s') /\ diags (plex s') = rev news ++ diags (plex s)
  | _ => news = []
  end.
Definition said (s : pst) : list diag := filter about_names (diags (plex s)).
(** the actions that made the nodes of [C] have reported, and nobody else; with [b], the newest diagnostic is not about names *)
Definition J (C : list node) (b : bool) (s : pst) : Prop :=
  (forall m, under C m -> exists news, built m news /\ exists l1 l2, said s = l1 ++ rev news ++ l2) /\
  (forall d, In d (said s) -> exists m news, under C m /\ built m news /\ In d news) /\
  (forall m st, under C m -> set_of m = Some st -> tidy st) /\
  (b = true -> exists d l, diags (plex s) = d :: l /\ about_names d = false).

Definition wpj {A} (m : P A) (C : list node) (b : bool) (Q : A -> list node -> bool -> Prop) : Prop :=
  forall s a s', J C b s -> m s = Ok (a, s') -> exists C' b', J C' b' s' /\ Q a C' b'.

Lemma J_weak C b s : J C b s -> J C false s.
Proof. intros (H1 & H2 & H3 & _). split; [|split; [|split]]; auto. discriminate. Qed.
Lemma J_conv C C' b s : covers C C' -> J C b s -> J C' b s.
Proof.
  intros [S1 S2] (H1 & H2 & H3 & H4). split; [|split; [|split]]; auto.
  - intros m U. destruct (S2 _ U) as [U'|Pm]; [now apply H1|]. exists []. split; [|exists [], (said s); reflexivity].
    destruct m; try reflexivity; destruct Pm.
  - intros d I. destruct (H2 _ I) as (m & news & U & B & I'). exists m, news. auto.
  - intros m st U E. destruct (S2 _ U) as [U'|Pm]; [now apply (H3 m)|]. destruct m; try discriminate. destruct Pm.
Qed.

Lemma wpj_ret {A} (a : A) C b (Q : A -> list node -> bool -> Prop) : Q a C b -> wpj (ret a) C b Q.
Proof. intros H s x s' E R. injection R as <- <-. exists C, b. auto. Qed.
Lemma wpj_bind {A T} (m : P A) (k : A -> P T) C b Q : wpj m C b (fun a C' b' => wpj (k a) C' b' Q) -> wpj (pbind m k) C b Q.
Proof.
  intros H s a s' E R. unfold pbind in R. destruct (m s) as [[x s1]| |] eqn:F; try discriminate.
  destruct (H s x s1 E F) as (C' & b' & E' & K). exact (K s1 a s' E' R).
Qed.
Lemma wpj_crash {A} w C b (Q : A -> list node -> bool -> Prop) : wpj (crash w) C b Q.
Proof. intros s a s' _ R. discriminate. Qed.
Lemma wpj_weak {A} (m : P A) C b (Q R : A -> list node -> bool -> Prop) :
  wpj m C b Q -> (forall a C' b', Q a C' b' -> R a C' b') -> wpj m C b R.
Proof. intros W H s a s' E F. destruct (W s a s' E F) as (C' & b' & E' & K). exists C', b'. auto. Qed.
Lemma wpj_conv {A} (m : P A) C C' b Q : covers C C' -> wpj m C' b Q -> wpj m C b Q.
Proof. intros S H s a s' E R. exact (H s a s' (J_conv _ _ _ _ S E) R). Qed.
Lemma wpj_any {A} (m : P A) C b Q : wpj m C false Q -> wpj m C b Q.
Proof. intros H s a s' E R. exact (H s a s' (J_weak _ _ _ E) R). Qed.
Lemma adds_said {A} (m : P A) s a s' : adds quiet m -> m s = Ok (a, s') -> said s' = said s.
Proof.
  intros K R. destruct (K _ _ _ R) as (new & D & F). unfold said. rewrite D, filter_app.
  replace (filter about_names new) with (@nil diag); [reflexivity|]. clear D. induction F as [|d l Hd F IH]; cbn; auto. now rewrite Hd.
Qed.
Lemma wpj_adds {A} (m : P A) C b (Q : A -> list node -> bool -> Prop) : adds quiet m -> (forall a, Q a C b) -> wpj m C b Q.
Proof.
  intros K H s a s' (H1 & H2 & H3 & H4) R. exists C, b. split; [|apply H]. pose proof (adds_said _ _ _ _ K R) as T.
  destruct (K _ _ _ R) as (new & D & F). split; [|split; [|split]]; auto.
  - now rewrite T.
  - now rewrite T.
  - intros E. destruct (H4 E) as (d & l & Dd & Kd). rewrite D, Dd. destruct new as [|d' new]; cbn [app]; [now exists d, l|].
    inversion F; subst. now exists d', (new ++ d :: l).
Qed.
(** after a diagnostic that is not about names *)
Lemma wpj_fails {A} (m : P A) C b (Q : A -> list node -> bool -> Prop) : adds quiet m ->
  (forall s a s', m s = Ok (a, s') -> exists d l, diags (plex s') = d :: l /\ about_names d = false) -> (forall a, Q a C true) -> wpj m C b Q.
Proof.
  intros K N H s a s' (H1 & H2 & H3 & H4) R. exists C, true. split; [|apply H]. pose proof (adds_said _ _ _ _ K R) as T.
  split; [|split; [|split]]; auto; [now rewrite T|now rewrite T|]. intros _. exact (N _ _ _ R).
Qed.
Lemma wpj_emit d C b (Q : unit -> list node -> bool -> Prop) : about_names d = false -> Q tt C true -> wpj (emit d) C b Q.
Proof.
  intros Kd H. apply wpj_fails; [now apply a_emit| |now intros []]. intros s a s' R. injection R as <- <-. now exists d, (diags (plex s)).
Qed.
Lemma wpj_diagNull w C b (Q : unit -> list node -> bool -> Prop) : Q tt C true -> wpj (diagNullExpr w) C b Q.
Proof.
  intros H. unfold diagNullExpr. apply wpj_bind, wpj_adds; [A|]. intros loc. apply wpj_bind, wpj_adds; [A|]. intros f. apply wpj_emit; [reflexivity|exact H].
Qed.
Lemma wpj_withSync {A} k (m : P A) C b Q : wpj m C b Q -> wpj (withSync k m) C b Q.
Proof.
  intros H s a s' E R. unfold withSync in R. destruct (m _) as [[x s1]| |] eqn:F; try discriminate.
  injection R as <- <-. exact (H (set_sync (k :: psync s) s) x s1 E F).
Qed.
Lemma wpj_withState {A} md (m : P A) C b Q : wpj m C b Q -> wpj (withState src md m) C b Q.
Proof.
  intros H. unfold withState. apply wpj_bind, wpj_adds; [A|]. intros _. apply wpj_bind.
  eapply wpj_weak; [exact H|]. intros a C' b' Qa. apply wpj_bind, wpj_adds; [A|]. intros _. apply wpj_ret. exact Qa.
Qed.
Lemma wpj_expect k C b (Q : option token -> list node -> bool -> Prop) :
  (forall t, Q (Some t) C b) -> Q None C true -> wpj (expect src k) C b Q.
Proof.
  intros Hs Hn. unfold expect. apply wpj_withSync. apply wpj_bind, wpj_adds; [A|]. intros t. destruct (tkind_beq (tk t) k); [now apply wpj_ret|].
  apply wpj_bind, wpj_adds; [A|]. intros rm. apply wpj_bind, wpj_adds; [A|]. intros [t'|]; [now apply wpj_ret|].
  apply wpj_bind, wpj_adds; [A|]. intros ins. apply wpj_bind, wpj_adds; [A|]. intros f. apply wpj_bind, wpj_emit; [reflexivity|]. now apply wpj_ret.
Qed.
Lemma wpj_upd f C (Q : unit -> list node -> bool -> Prop) : (forall d, d_kind (f d) = d_kind d) -> Q tt C true -> wpj (upd_last f) C true Q.
Proof.
  intros Kf H s a s' (H1 & H2 & H3 & H4) R. destruct (H4 eq_refl) as (d & l & D & Kd). unfold upd_last in R. rewrite D in R. injection R as <- <-.
  assert (Kfd : about_names (f d) = false) by (unfold about_names in *; now rewrite Kf).
  assert (T : said (PS (Lst (cur (plex s)) (rest (plex s)) (f d :: l)) (pbuf s) (plast s) (pmodes s) (psync s) (pnid s)) = said s).
  { unfold said. cbn [plex diags]. rewrite D. cbn [filter]. now rewrite Kfd, Kd. }
  exists C, true. split; [|exact H]. split; [|split; [|split]]; auto; [now rewrite T|now rewrite T|]. intros _. now exists (f d), l.
Qed.
Lemma wpj_noteMatch r k C (Q : unit -> list node -> bool -> Prop) : Q tt C true -> wpj (noteMatch r k) C true Q.
Proof. intros H. unfold noteMatch. now apply wpj_upd. Qed.
Lemma wpj_addFix m e C (Q : unit -> list node -> bool -> Prop) : Q tt C true -> wpj (addFix m e) C true Q.
Proof. intros H. unfold addFix. apply wpj_bind, wpj_adds; [A|]. intros f. now apply wpj_upd. Qed.
Lemma wpj_misc r C b (Q : node -> list node -> bool -> Prop) : (forall i, Q (NMisc i r) C b) -> wpj (mkMisc r) C b Q.
Proof. intros H. unfold mkMisc. apply wpj_bind, wpj_adds; [A|]. intros i. apply wpj_ret, H. Qed.

(** the semantic actions *)
Lemma J_act {A} (m : P A) C b s a s' n : adds names m -> J (C ++ present (children n)) b s -> m s = Ok (a, s') ->
  (forall news, diags (plex s') = rev news ++ diags (plex s) -> built n news) ->
  (forall st, set_of n = Some st -> tidy st) -> J (C ++ [n]) false s'.
Proof.
  intros K (H1 & H2 & H3 & _) R B T. destruct (K _ _ _ R) as (new & D & F).
  assert (E : said s' = new ++ said s).
  { unfold said. rewrite D, filter_app. f_equal. clear D. induction F as [|d l Hd F IH]; cbn; auto. now rewrite Hd, IH. }
  assert (U : forall x, under (C ++ [n]) x <-> x = n \/ under (C ++ present (children n)) x).
  { intros x. rewrite !under_app, under_cons, under_nil, node_iff. tauto. }
  specialize (B (rev new)). rewrite rev_involutive in B. specialize (B D).
  split; [|split; [|split]].
  - intros x Ux. apply U in Ux as [->|Ux].
    + exists (rev new). split; [exact B|]. exists [], (said s). now rewrite rev_involutive.
    + destruct (H1 _ Ux) as (news & Bx & l1 & l2 & El). exists news. split; [exact Bx|]. exists (new ++ l1), l2. rewrite E, El. now rewrite <- app_assoc.
  - intros d I. rewrite E in I. apply in_app_or in I as [I|I].
    + exists n, (rev new). split; [apply U; now left|]. split; [exact B|]. now apply -> in_rev.
    + destruct (H2 _ I) as (x & news & Ux & Bx & Ix). exists x, news. split; [apply U; now right|]. auto.
  - intros x st Ux Es. apply U in Ux as [->|Ux]; [now apply T|]. now apply (H3 x).
  - discriminate.
Qed.
Lemma items_under bs names v : In (Bound names (Some v)) (items bs) -> under bs v.
Proof.
  unfold items. intros I. apply in_flat_map in I as (q & Iq & I). exists q. split; [exact Iq|].
  destruct q; cbn [items_of] in I; try (destruct I; fail).
  - destruct q; try (destruct I; fail). destruct I as [I|[]]. injection I as _ ->. apply (node_child _ v); [|constructor]. cbn [children].
    rewrite !IdTree.present_cons. apply in_or_app. right. apply in_or_app. first [left; now left|right; apply in_or_app; left; now left].
  - apply in_map_iff in I as (x & E & _). discriminate.
Qed.
Lemma attrs_tidy r bd rc s n s' st : onExprAttrs r bd rc s = Ok (n, s') -> literals_tidy (bindings bd) -> set_of n = Some st -> tidy st.
Proof.
  intros H L. unfold onExprAttrs in H. apply bind_ok in H as (sa & s1 & E & H).
  apply bind_ok in H as (i & s2 & E2 & H). injection H as <- <-. destruct (lowerBinds_run _ _ _ _ _ E tidy_nil L) as (news & _ & R & _).
  cbn [set_of]. intros [= <-]. exact (r_tidy _ _ _ _ R).
Qed.
Lemma wpj_attrs r bd rc C b (Q : node -> list node -> bool -> Prop) :
  (forall i st dy, Q (NAttrs i r bd rc st dy) (C ++ [NAttrs i r bd rc st dy]) false) ->
  wpj (onExprAttrs r bd rc) (C ++ optlist bd ++ optlist rc) b Q.
Proof.
  intros H s a s' E R. assert (S : exists i st dy, a = NAttrs i r bd rc st dy).
  { unfold onExprAttrs in R. unfold pbind in R. destruct (lowerBinds _ _ s) as [[sa s1]| |]; try discriminate. injection R as <- _. eauto. }
  destruct S as (i & st & dy & ->). exists (C ++ [NAttrs i r bd rc st dy]), false. split; [|apply H].
  assert (P : present (children (NAttrs i r bd rc st dy)) = optlist bd ++ optlist rc).
  { cbn [children]. rewrite !IdTree.present_cons. cbn [present flat_map]. now rewrite app_nil_r. }
  assert (L : literals_tidy (bindings bd)).
  { intros names v st' I Ev. destruct E as (_ & _ & H3 & _). apply (H3 v); [|exact Ev]. apply items_under in I as (q & Iq & Hv).
    unfold bindings in Iq. destruct bd as [[]|]; try destruct Iq. apply under_app. right. apply under_app. left. cbn [optlist]. eexists. split; [now left|].
    eapply node_child; [|exact Hv]. cbn [children]. rewrite present_some. exact Iq. }
  eapply J_act; [apply a_onExprAttrs|rewrite P; exact E|exact R| |].
  - intros news D. cbn [built]. exists s, s'. auto.
  - intros st' Es. exact (attrs_tidy _ _ _ _ _ _ _ R L Es).
Qed.
Lemma wpj_formals r fv C b (Q : node -> list node -> bool -> Prop) :
  (forall i d, Q (NFormals i r fv d) (C ++ [NFormals i r fv d]) false) -> wpj (onFormals src r fv) (C ++ fv) b Q.
Proof.
  intros H s a s' E R. assert (S : exists i d, a = NFormals i r fv d).
  { pose proof R as R'. unfold onFormals, pbind in R'. repeat match type of R' with match ?x with _ => _ end = _ => destruct x as [[? ?]| |]; try discriminate end.
    injection R' as <- _. eauto. }
  destruct S as (i & d & ->). exists (C ++ [NFormals i r fv d]), false. split; [|apply H].
  eapply J_act; [apply a_onFormals|cbn [children]; rewrite present_some; exact E|exact R| |discriminate].
  intros news D. cbn [built]. exists s, s'. auto.
Qed.
Lemma wpj_arg r idn f C b (Q : node -> list node -> bool -> Prop) :
  (forall i, Q (NLambdaArg i r idn f) (C ++ [NLambdaArg i r idn f]) false) -> wpj (onLambdaArg r idn f) (C ++ optlist idn ++ optlist f) b Q.
Proof.
  intros H s a s' E R. assert (S : exists i, a = NLambdaArg i r idn f).
  { pose proof R as R'. unfold onLambdaArg, pbind in R'. match type of R' with match ?x with _ => _ end = _ => destruct x as [[? ?]| |]; try discriminate end.
    injection R' as <- _. eauto. }
  destruct S as (i & ->). exists (C ++ [NLambdaArg i r idn f]), false. split; [|apply H].
  assert (P : present (children (NLambdaArg i r idn f)) = optlist idn ++ optlist f).
  { cbn [children]. rewrite !IdTree.present_cons. cbn [present flat_map]. now rewrite app_nil_r. }
  eapply J_act; [apply a_onLambdaArg|rewrite P; exact E|exact R| |discriminate].
  intros news D. cbn [built]. exists s, s'. auto.
Qed.
End Rules.
