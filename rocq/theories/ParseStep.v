(** Requests, their preconditions and what they guarantee; lemmas to use them. *)
From Coq Require Import Permutation.
From Verif Require Import Base Diag LexModel LexSpec LexProofs AstModel PSupModel SemaModel ParseModel ParseSpec FixSpec
  ParseInv ParseTree ParseSema.

Section Step.
Variable src : bytes.
Notation sok := (sok src). Notation nok := (nok src). Notation local := (local src).
Notation Inv := (Inv src). Notation wp := (wp src). Notation dok := (dok src).
Notation tokok := (tokok src). Notation grp := (grp src). Notation fine := (fine src).
Notation starts := (starts src).
Notation len := (List.length src).

Definition qk (ind : bool) : tkind := if ind then tok_quote2 else tok_dquote.

(** the class of the result *)
Definition kinds (q : nt) (n : node) : Prop :=
  match q with
  | QParts _ _ => is_kind NK_InterpolableParts n
  | QInterp => is_kind NK_Interpolation n
  | QString _ => is_kind NK_ExprString n
  | QAttrName => is_kind NK_AttrName n
  | QAttrPath | QAttrPathLoop _ _ _ _ => is_kind NK_AttrPath n
  | QBinding => is_kind NK_Binding n
  | QInherit | QInheritLoop _ _ _ => is_kind NK_Inherit n
  | QBinds | QBindsLoop _ _ => is_kind NK_Binds n
  | QFormal => is_kind NK_Formal n
  | QFormals | QFormalsLoop _ _ => is_kind NK_Formals n
  | QLambdaArg => is_kind NK_LambdaArg n
  | QLambda => is_kind NK_ExprLambda n
  | _ => is_expr n
  end.
(** the nodes a loop has collected *)
Definition accum (q : nt) : list node :=
  match q with
  | QOpLoop _ p => [p]
  | QAppLoop f l => f :: l
  | QListLoop _ l | QBindsLoop _ l | QFormalsLoop _ l => l
  | QParts _ fs | QPathLoop _ fs => interps fs
  | QAttrPathLoop _ ns ds _ => ns ++ ds
  | QInheritLoop _ e l => optlist e ++ l
  | _ => []
  end.
Definition rank (q : nt) : nat :=
  match q with
  | QInterp | QString _ | QParen | QList | QAttrs | QOpLoop _ _ | QAttrPathLoop _ _ _ _ | QInherit | QFormal
  | QFormals | QIf | QAssert | QLet | QLegacyLet | QWith => 0
  | QPathLoop _ _ | QParts _ _ | QAttrName | QFormalsLoop _ _ | QLambdaArg => 1
  | QPath | QAttrPath | QInheritLoop _ _ _ | QLambda => 2
  | QSimple | QBinding => 3
  | QSelect | QBindsLoop _ _ => 4
  | QApp | QAppLoop _ _ | QListLoop _ _ | QBinds => 5
  | QOp _ => 6
  | QExpr => 7
  end.
Definition T (q : nt) (s : pst) : nat := 32 * (len - base s) + rank q.

Definition front (s : pst) (ks : list tkind) : Prop := exists t bf, pbuf s = t :: bf /\ In (tk t) ks.

Definition acc_ok (c : cursor) (s : pst) (l : list node) : Prop :=
  cursor_in src c /\ exists a, a <= pnid s /\ grp (off c) (lastpos s) a (pnid s) l.
Definition tok_loop (k : tkind) (t : token) (s : pst) (l : list node) : Prop :=
  tokok PS_Expr t /\ tk t = k /\ plast s <> None /\ off (rcur (trange t)) <= lastpos s /\
  acc_ok (lcur (trange t)) s l.

Definition pre (q : nt) (s : pst) : Prop :=
  match q with
  | QInterp => front s [tok_dollar_curly]
  | QParts c fs =>
      (mode s = PS_String \/ mode s = PS_IndString) /\ plast s <> None /\ off c <= lastpos s /\
      acc_ok c s (interps fs) /\ Forall (is_kind NK_Interpolation) (interps fs)
  | QPathLoop t fs =>
      mode s = PS_Path /\ tokok PS_Expr t /\ tk t = tok_path_fragment /\ pbuf s = [] /\
      ((fs = [] /\ basec s = lcur (trange t)) \/
       (off (lcur (trange t)) < lastpos s /\ plast s <> None /\ occurs (b "${") src)) /\
      acc_ok (lcur (trange t)) s (interps fs) /\ Forall (is_kind NK_Interpolation) (interps fs)
  | _ =>
      mode s = PS_Expr /\
      match q with
      | QParen => front s [tok_l_paren]
      | QString ind => front s [qk ind]
      | QPath => front s [tok_path_fragment]
      | QAttrs => front s [tok_kw_rec; tok_l_curly]
      | QIf => front s [tok_kw_if]
      | QAssert => front s [tok_kw_assert]
      | QLet => front s [tok_kw_let]
      | QLegacyLet => exists t1 t2 bf, pbuf s = t1 :: t2 :: bf /\ tk t1 = tok_kw_let /\ tk t2 = tok_l_curly
      | QWith => front s [tok_kw_with]
      | QLambda | QLambdaArg => front s [tok_id; tok_l_curly]
      | QOpLoop _ p =>
          acc_ok (nl p) s [p] /\ is_expr p /\ plast s <> None /\ (nd s = 0 -> nr p = lastc s)
      | QAppLoop f l =>
          (cursor_in src (nl f) /\ exists a, a <= pnid s /\ grp (off (nl f)) (off (nr (last l f))) a (pnid s) (f :: l)) /\
          off (nr (last l f)) <= lastpos s /\ is_expr f /\ Forall is_expr l /\ plast s <> None /\
          (nd s = 0 -> nr (last l f) = lastc s)
      | QListLoop t l => tok_loop tok_l_bracket t s l /\ Forall is_expr l
      | QAttrPathLoop c ns ds _ =>
          acc_ok c s (ns ++ ds) /\ plast s <> None /\ off c < lastpos s /\
          ns <> [] /\ Forall (is_kind NK_AttrName) ns /\ Forall (is_kind NK_Dot) ds
      | QInheritLoop t e l =>
          tok_loop tok_kw_inherit t s (optlist e ++ l) /\ opt is_expr e /\ Forall (is_kind NK_AttrName) l
      | QBindsLoop c l =>
          acc_ok c s l /\ off c <= base s /\ (l <> [] -> plast s <> None /\ off c < lastpos s) /\ Forall is_bind l
      | QFormalsLoop t l => tok_loop tok_l_curly t s l /\ Forall (is_kind NK_Formal) l
      | _ => True
      end
  end.

(** where the result starts *)
Definition begins (q : nt) (s : pst) (c : cursor) : Prop :=
  match q with
  | QOpLoop _ p => c = nl p
  | QAppLoop f _ => c = nl f
  | QListLoop t _ | QPathLoop t _ | QInheritLoop t _ _ | QFormalsLoop t _ => c = lcur (trange t)
  | QParts c0 _ | QAttrPathLoop c0 _ _ _ | QBindsLoop c0 _ => c = c0
  | QFormals => base s <= off c
  | _ => starts s c
  end.

Definition nonable (q : nt) (s : pst) : Prop :=
  match q with
  | QParen | QString _ | QParts _ _ | QPath | QPathLoop _ _ | QInterp | QAttrs | QIf | QAssert | QLet | QLegacyLet
  | QWith | QLambda | QLambdaArg | QListLoop _ _ | QAttrPathLoop _ _ _ _ | QInheritLoop _ _ _ | QFormalsLoop _ _
  | QOpLoop _ _ | QAppLoop _ _ => False
  | QFormals => ~ front s [tok_l_curly]
  | QBindsLoop _ l => l = []
  | _ => True
  end.

Record okres (q : nt) (s : pst) (n : node) (s' : pst) : Prop := {
  r_fine : forall a, a <= pnid s -> idl a (pnid s) (lids (accum q)) -> fine a (pnid s') n;
  r_kind : kinds q n;
  r_begin : begins q s (nl n);
  r_end : off (nr n) <= lastpos s';
  r_clean : nd s' = 0 -> nr n = lastc s';
  r_has : plast s' <> None;
  r_buf : q = QInterp -> pbuf s' = [] }.

Definition post (q : nt) (s : pst) (o : option node) (s' : pst) : Prop :=
  Inv s' /\ mvd s s' /\
  match o with
  | None => nonable q s /\ (nd s' = 0 -> lastc s' = lastc s)
  | Some n => okres q s n s'
  end.

Definition RecOK (fuel : nat) (rec : nt -> P (option node)) : Prop :=
  forall q s, Inv s -> pre q s -> T q s < fuel -> wp (rec q) (post q s) s.

Lemma use_rec fuel rec q (Q : option node -> pst -> Prop) s :
  RecOK fuel rec -> Inv s -> pre q s -> T q s < fuel ->
  (forall s', Inv s' -> mvd s s' -> nonable q s -> (nd s' = 0 -> lastc s' = lastc s) -> Q None s') ->
  (forall n s', Inv s' -> mvd s s' -> okres q s n s' -> Q (Some n) s') ->
  wp (rec q) Q s.
Proof.
  intros R I Hp Ht HN HS. eapply wp_mono; [apply R; auto|]. intros [n|] s' (I' & M & H); [now apply HS|].
  destruct H. now apply HN.
Qed.

Lemma starts_le s c : starts s c -> base s <= off c.
Proof. intros [[H _] _]. exact H. Qed.
Lemma starts_self s : starts s (basec s).
Proof. split; [apply gap_refl|]. split; auto. Qed.
Lemma starts_eq s s' c :
  base s' = base s -> pbuf s' = pbuf s -> basec s' = basec s -> mode s' = mode s -> starts s' c -> starts s c.
Proof. unfold ParseInv.starts. intros -> -> -> ->. auto. Qed.
Lemma starts_front s t bf c : pbuf s = t :: bf -> starts s c -> c = lcur (trange t).
Proof.
  intros E (_ & H & _). rewrite H by congruence. unfold basec. now rewrite E.
Qed.

Lemma nok_ne n : nok n -> kind_of n <> NK_InterpolableParts -> off (nl n) < off (nr n).
Proof. intros H. apply (nok_local src n H). Qed.
Lemma expr_ne n : nok n -> is_expr n -> off (nl n) < off (nr n).
Proof. intros H E. apply nok_ne; auto. intros K. unfold is_expr in E. rewrite K in E. discriminate. Qed.

(** requests that are not loops *)
Definition plain (q : nt) : Prop :=
  match q with
  | QOpLoop _ _ | QAppLoop _ _ | QListLoop _ _ | QPathLoop _ _ | QInheritLoop _ _ _ | QFormalsLoop _ _
  | QParts _ _ | QAttrPathLoop _ _ _ _ | QBindsLoop _ _ => False
  | _ => True
  end.
Lemma plain_res q s n s' : plain q -> okres q s n s' ->
  fine (pnid s) (pnid s') n /\ kinds q n /\ base s <= off (nl n) /\ off (nl n) < off (nr n) /\
  off (nr n) <= lastpos s' /\ (nd s' = 0 -> nr n = lastc s') /\ plast s' <> None /\
  (q <> QFormals -> starts s (nl n)) /\ cursor_in src (nl n) /\ cursor_in src (nr n) /\ nok n.
Proof.
  intros Hp [A B C D E F _].
  assert (Hf : fine (pnid s) (pnid s') n).
  { apply A; [lia|]. destruct q; try destruct Hp; apply idl_nil. }
  split; [exact Hf|]. split; [exact B|].
  assert (Hs : q <> QFormals -> starts s (nl n)).
  { destruct q; try destruct Hp; try (intros _; exact C). congruence. }
  split.
  { destruct q; try destruct Hp; try (apply (starts_le _ _ C)). exact C. }
  pose proof (nok_range src n (proj1 Hf)) as (R1 & R2 & _).
  split; [|repeat (split; [assumption|]); apply Hf].
  apply nok_ne; [apply Hf|]. unfold kinds, is_kind, is_expr in B.
  destruct q; try destruct Hp; try (intros K; rewrite K in B; discriminate).
Qed.

(** * Building nodes *)
Lemma tok_lt m t : tokok m t -> tk t <> tok_eof -> tk t <> tok_path_end -> off (lcur (trange t)) < off (rcur (trange t)).
Proof. apply tokok_ne. Qed.
Lemma tok_in m t : tokok m t -> cursor_in src (lcur (trange t)) /\ cursor_in src (rcur (trange t)) /\ range_in src (trange t).
Proof. intros H. pose proof (tokok_range _ _ _ H) as R. split; [apply R|]. split; [apply R|exact R]. Qed.

Definition plain_node (n : node) : Prop :=
  match n with
  | NIdent _ _ _ | NInherit _ _ _ _ | NParts _ _ _ => False
  | NAttrs _ r _ (Some m) _ _ => inside (nrange m) r \/ text_of src (nrange m) = b "let"
  | NLegacyLet _ r kl _ => inside (nrange kl) r
  | NBinding _ _ p v _ => opt (fun v => off (nr p) <= off (nl v)) v
  | NLambdaArg _ _ i f => i <> None \/ f <> None
  | NSelect _ _ e dot _ _ _ => opt (fun d => off (nr e) <= off (nl d)) dot
  | _ => True
  end.
Lemma local_mk n :
  plain_node n -> cursor_in src (nl n) -> cursor_in src (nr n) -> off (nl n) < off (nr n) -> typed n -> local n.
Proof.
  intros Hp H1 H2 H3 H4. split; [split; [exact H1|split; [exact H2|unfold nl, nr in H3; lia]]|].
  split; [auto|]. split; [exact H4|]. destruct n; try exact Logic.I; try exact Hp; try destruct Hp.
Qed.
Lemma misc_fine i t m a b' :
  tokok m t -> tk t <> tok_eof -> tk t <> tok_path_end -> a <= i < b' -> fine a b' (NMisc i (trange t)).
Proof.
  intros H H1 H2 H3. apply leaf_ok; auto. destruct (tok_in m t H) as (C1 & C2 & _).
  apply local_mk; auto; try exact Logic.I. now apply (tok_lt m).
Qed.
Lemma op_fine i t k m a b' :
  tokok m t -> tk t <> tok_eof -> tk t <> tok_path_end -> a <= i < b' -> fine a b' (NOp i (trange t) k).
Proof.
  intros H H1 H2 H3. apply leaf_ok; auto. destruct (tok_in m t H) as (C1 & C2 & _).
  apply local_mk; auto; try exact Logic.I. now apply (tok_lt m).
Qed.
Lemma dot_fine i t p q m a b' :
  tokok m t -> tk t <> tok_eof -> tk t <> tok_path_end -> a <= i < b' -> fine a b' (NDot i (trange t) p q).
Proof.
  intros H H1 H2 H3. apply leaf_ok; auto. destruct (tok_in m t H) as (C1 & C2 & _).
  apply local_mk; auto; try exact Logic.I. now apply (tok_lt m).
Qed.
Lemma ident_fine i t m a b' :
  tokok m t -> tk t <> tok_eof -> tk t <> tok_path_end -> a <= i < b' -> fine a b' (NIdent i (trange t) (tview t)).
Proof.
  intros H H1 H2 H3. apply leaf_ok; auto. pose proof (tok_lt m t H H1 H2).
  destruct (tok_in m t H) as (C1 & C2 & C3). split; [exact C3|]. split; [auto|]. split; [exact Logic.I|].
  destruct H as ((_ & _ & _ & ->) & _). reflexivity.
Qed.

Lemma grp_reid lo hi a b a' l : grp lo hi a b l -> idl a' b (lids l) -> grp lo hi a' b l.
Proof. intros [H1 H2 H3 _] H. constructor; auto. Qed.
Lemma fine_sok a b n : fine a b n -> sok n.
Proof. intros [[H _] _]. exact H. Qed.
Lemma grp_sok lo hi a b l : grp lo hi a b l -> Forall sok l.
Proof. intros [H _ _ _]. eapply Forall_impl; [|exact H]. now intros n [? _]. Qed.

(** * Stepping *)
Lemma wp_eq {A} (m : P A) (Q : A -> pst -> Prop) s :
  wp m (fun a s' => m s = Ok (a, s') -> Q a s') s -> wp m Q s.
Proof. unfold ParseInv.wp. destruct (m s) as [[a s']|w|]; auto. Qed.
Lemma wp_lCur (Q : cursor -> pst -> Prop) s :
  Inv s ->
  (forall t bf s', Inv s' -> pbuf s' = t :: bf -> peeked src s t s' ->
     starts s (lcur (trange t)) -> basec s' = lcur (trange t) -> base s' = off (lcur (trange t)) ->
     Q (lcur (trange t)) s') ->
  wp lCur Q s.
Proof. intros I H. apply wp_bind, wp_peek0; auto. Qed.
Lemma wp_peekk0 (Q : tkind -> pst -> Prop) s :
  Inv s ->
  (forall t bf s', Inv s' -> pbuf s' = t :: bf -> peeked src s t s' ->
     starts s (lcur (trange t)) -> basec s' = lcur (trange t) -> base s' = off (lcur (trange t)) ->
     Q (tk t) s') ->
  wp (peekk 0) Q s.
Proof. intros I H. apply wp_bind, wp_peek0; auto. Qed.
Lemma res_tail q q' s s3 n s4 s5 :
  okres q' s3 n s4 -> q <> QInterp -> (kinds q' n -> kinds q n) -> (begins q' s3 (nl n) -> begins q s (nl n)) ->
  (forall a, a <= pnid s -> idl a (pnid s) (lids (accum q)) -> a <= pnid s3 /\ idl a (pnid s3) (lids (accum q'))) ->
  lastpos s5 = lastpos s4 -> lastc s5 = lastc s4 -> nd s4 <= nd s5 -> pnid s5 = pnid s4 -> plast s5 = plast s4 ->
  okres q s n s5.
Proof.
  intros [A1 A2 A3 A4 A5 A6 _] Hq Hk Hb Hi E1 E2 E3 E4 E5. constructor; auto.
  - intros a Ha Hl. destruct (Hi a Ha Hl). rewrite E4. auto.
  - now rewrite E1.
  - intros E. rewrite E2. apply A5. lia.
  - now rewrite E5.
  - intros ->. congruence.
Qed.
(** an optional result *)
Record ores (q : nt) (s : pst) (o : option node) (s' : pst) : Prop := {
  o_fine : ofine src (pnid s) (pnid s') o;
  o_kind : opt (kinds q) o;
  o_in : opt (fun n => base s <= off (nl n) /\ off (nl n) < off (nr n) /\ off (nr n) <= lastpos s') o;
  o_clean : nd s' = 0 -> match o with Some n => nr n = lastc s' | None => lastc s' = lastc s end;
  o_none : o = None -> nonable q s;
  o_has : o <> None -> plast s' <> None;
  o_start : q <> QFormals -> opt (fun n => starts s (nl n)) o }.
Lemma use_opt fuel rec q (Q : option node -> pst -> Prop) s :
  RecOK fuel rec -> Inv s -> pre q s -> plain q -> T q s < fuel ->
  (forall o s', Inv s' -> mvd s s' -> ores q s o s' -> Q o s') ->
  wp (rec q) Q s.
Proof.
  intros R I Hp Hpl Ht H. eapply use_rec; eauto.
  - intros s' I' M N C. apply H; auto. constructor; simpl; auto; discriminate || congruence.
  - intros n s' I' M O. apply H; auto. destruct (plain_res _ _ _ _ Hpl O) as (A1 & A2 & A3 & A4 & A5 & A6 & A7 & A8 & _).
    constructor; simpl; auto; congruence.
Qed.
Lemma ores_grp q s o s' lo hi a b :
  ores q s o s' -> lo <= base s -> lastpos s' <= hi -> a <= pnid s -> pnid s' <= b -> grp lo hi a b (optlist o).
Proof.
  intros [A1 _ A2 _ _ _ _] H1 H2 H3 H4. destruct o as [n|]; [|apply grp_nil]. simpl in *.
  apply fine_grp; [eapply fine_mono; eauto|lia|lia].
Qed.
Lemma ores_sok q s o s' : ores q s o s' -> opt (fun n => sok n /\ kinds q n) o.
Proof.
  intros [A1 A2 _ _ _ _ _]. destruct o as [n|]; [|exact Logic.I]. simpl in *. split; [apply (fine_sok _ _ _ A1)|exact A2].
Qed.
Lemma grp_cat lo hi a b m k l1 l2 :
  grp lo m a k l1 -> grp m hi k b l2 -> lo <= m -> m <= hi -> a <= k -> k <= b -> grp lo hi a b (l1 ++ l2).
Proof.
  intros G1 G2 H1 H2 H3 H4. apply (grp_app src _ _ _ _ lo m a k m hi k b); auto; lia.
Qed.
(** what holds when the scope of a synchronisation token is left *)
Definition closing {A} (k : tkind) (sy : list tkind) (Q : A -> pst -> Prop) (a : A) (s2 : pst) : Prop :=
  Inv s2 /\ psync s2 = k :: sy /\
  forall s3, Inv s3 -> psync s3 = sy ->
    pbuf s3 = pbuf s2 -> plast s3 = plast s2 -> pmodes s3 = pmodes s2 -> mode s3 = mode s2 ->
    basec s3 = basec s2 -> base s3 = base s2 -> lastc s3 = lastc s2 -> lastpos s3 = lastpos s2 ->
    nd s3 = nd s2 -> pnid s3 = pnid s2 -> Q a s3.
Lemma wp_sync {A} k (m : P A) (Q : A -> pst -> Prop) s :
  Inv s ->
  (forall s1, Inv s1 -> psync s1 = k :: psync s ->
     pbuf s1 = pbuf s -> plast s1 = plast s -> pmodes s1 = pmodes s -> mode s1 = mode s -> basec s1 = basec s ->
     base s1 = base s -> lastc s1 = lastc s -> lastpos s1 = lastpos s -> nd s1 = nd s -> pnid s1 = pnid s ->
     wp m (closing k (psync s) Q) s1) ->
  wp (withSync k m) Q s.
Proof. intros I H. apply wp_withSync; auto. Qed.
Lemma wp_lCur_front t bf (Q : cursor -> pst -> Prop) s : pbuf s = t :: bf -> Q (lcur (trange t)) s -> wp lCur Q s.
Proof. intros E H. apply wp_bind, (wp_peek_front _ t bf); auto. Qed.
Lemma wp_peekk_front t bf (Q : tkind -> pst -> Prop) s : pbuf s = t :: bf -> Q (tk t) s -> wp (peekk 0) Q s.
Proof. intros E H. apply wp_bind, (wp_peek_front _ t bf); auto. Qed.
Lemma wp_peekk n pre (Q : tkind -> pst -> Prop) s :
  Inv s -> (exists bf, pbuf s = pre ++ bf) -> List.length pre = n -> Forall (fun x => la (tk x)) pre ->
  (forall t bf s', Inv s' -> pbuf s' = pre ++ t :: bf -> peeked src s t s' -> Q (tk t) s') ->
  wp (peekk n) Q s.
Proof. intros I H1 H2 H3 H. apply wp_bind, (wp_peek src n pre); auto. intros. apply wp_ret. eauto. Qed.
Lemma wp_ok n (Q : option node -> pst -> Prop) s : Q (Some n) s -> wp (ok_ n) Q s.
Proof. auto. Qed.
End Step.

Ltac dd :=
  repeat match goal with
  | H : stl _ _ |- _ => destruct H
  | H : mvd _ _ |- _ => destruct H
  | H : peeked _ _ _ _ |- _ =>
      destruct H as (? & ? & ? & ? & ? & ? & ? & ? & ? & ?)
  end.
(** the last token is set *)
Ltac has :=
  match goal with
  | |- plast ?s <> None =>
      first [ assumption
            | match goal with
              | H : plast s = Some _ |- _ => rewrite H; discriminate
              | H : plast s = plast ?s' |- _ => rewrite H; has
              | H : plast ?s' <> None -> plast s <> None |- _ => apply H; has
              end ]
  end.
Ltac bnd := apply wp_bind.
(** facts every state gives *)
Ltac facts s :=
  match goal with
  | I : Inv ?src s |- _ =>
      pose proof (base_le src s I); pose proof (lastpos_base src s I); pose proof (eq_refl : off (lastc s) = lastpos s)
  end.
Ltac tokf t :=
  match goal with
  | H : tokok ?src ?m t |- _ =>
      let C1 := fresh "Ci" in let C2 := fresh "Ci" in let C3 := fresh "Cr" in
      destruct (tok_in src m t H) as (C1 & C2 & C3); pose proof (proj2 (proj2 C3) : off (lcur (trange t)) <= off (rcur (trange t)))
  end.
Ltac tolt t :=
  match goal with
  | H : tokok ?src ?m t |- _ =>
      let H1 := fresh "Hlt" in
      assert (H1 : off (lcur (trange t)) < off (rcur (trange t)))
        by (apply (tok_lt src m t H); congruence)
  end.
Ltac pk t bf s :=
  first [apply wp_peek0 | apply wp_peekk0 | apply wp_lCur]; [assumption|]; intros t bf s ? ? ? ? ? ?; dd; facts s; tokf t.
Ltac pkf t bf := first [apply (wp_peek_front _ t bf) | apply (wp_lCur_front _ t bf) | apply (wp_peekk_front _ t bf)]; [congruence|].
Ltac cs t bf s := apply (wp_consume _ t bf); [assumption|congruence|]; intros s ? ? ? ? ? ? ? ? ? ? ? ? ? ?; facts s.
Ltac fr s := first [apply wp_fresh | apply wp_mkMisc]; [assumption|]; intros s ? ? ?; dd; facts s.
Ltac sy s := apply wp_sync; [assumption|]; intros s ? ? ? ? ? ? ? ? ? ? ? ?; facts s.
(** closing the scope of a withSync *)
Ltac ys s := split; [assumption|split; [congruence|]]; intros s ? ? ? ? ? ? ? ? ? ? ? ?; facts s.
Ltac al := apply wp_assertLast; [has|].
Ltac tl := apply wp_toLast; [has|].
Ltac tb := unfold T; cbn [rank]; lia.
Ltac on s := apply wp_orNull; [assumption|has|]; intros s ? ? ?; dd; facts s.
Ltac dn s := apply wp_diagNullExpr; [assumption|has|]; intros s ? ? ?; dd; facts s.
Ltac nm s := apply wp_noteMatch; [assumption|lia|assumption|]; intros s ? ? ?; dd; facts s.
Ltac em s := apply wp_emit; [assumption| |intros s ? ? ?; dd; facts s].
Ltac ps := match goal with |- wp _ (passert _ _) _ _ =>
   let E := fresh in
   match goal with |- wp _ (passert ?x _) _ _ => assert (E : x = true) by (match goal with H : tk _ = _ |- _ => rewrite H; reflexivity end) end;
   rewrite E; apply wp_passert end.
(** [ex k t bf s sN]: expect, with the two outcomes *)
Ltac ex t bf s :=
  apply wp_expect; [assumption|congruence|discriminate|
    intros s t bf ? ? ? ? ? ? ? ?; dd; facts s; tokf t
  | intros s ? ? ?; dd; facts s].
Ltac rc n s :=
  eapply use_rec; [eassumption|assumption| |tb|intros s ? ? ? ?; dd; facts s|intros n s ? ? ?; dd; facts s].
Ltac plain_facts n :=
  match goal with
  | H : okres ?src ?q ?s n ?s' |- _ =>
      let F := fresh "F" in
      destruct (plain_res src q s n s' Logic.I H) as (F & ? & ? & ? & ? & ? & ? & ? & ? & ? & ?);
      cbn [kinds] in *
  end.
Ltac mv := constructor; [congruence|congruence|congruence|lia|lia|lia|lia|intros; has].
Ltac nn := match goal with H : nonable _ _ |- _ => destruct H end.
Ltac mode_t t := match goal with H : tokok ?src ?m t |- tokok ?src PS_Expr t => replace PS_Expr with m by congruence; exact H end.
Ltac inil := intros ? ? _; split; [lia|apply idl_nil].
(** the answer is that of the last call *)
Ltac tail :=
  match goal with
  | H : okres ?src ?q' ?s3 ?n ?s4 |- post _ _ _ (Some ?n) ?s5 =>
      split; [assumption|split; [mv|]];
      apply (res_tail src _ q' _ s3 n s4 s5 H); [discriminate| | | |first [reflexivity|congruence|lia]..]
  end.
Ltac cb := unfold nl, nr in *; cbn [nrange nid lcur rcur] in *.
Ltac fin :=
  split; [assumption|split; [mv|constructor;
    [intros a Ha Hi|try reflexivity| |unfold nr; cbn [nrange rcur]; try lia|unfold nr; cbn [nrange rcur]; try (intros; congruence)|has|first [discriminate | intros _; congruence]]]].
Ltac lastin s := match goal with I : Inv ?src s |- _ =>
  let H := fresh "Li" in assert (H : cursor_in src (lastc s)) by (apply lastc_in; [exact I|has]) end.
Ltac cln := intros; repeat match goal with H : nd _ = 0 -> _ |- _ => specialize (H ltac:(lia)) end.
Ltac none := split; [assumption|split; [mv|split; [first [exact Logic.I|assumption|reflexivity]|cln; first [congruence|lia]]]].
Ltac pm := cbn [proper children]; rewrite ?present_app, ?present_cons, ?present_map, ?present_nil, ?app_nil_r;
  cbn [optlist app]; rewrite ?app_nil_r.
Ltac oc o s :=
  eapply use_opt; [eassumption|assumption| |exact Logic.I|tb|intros o s ? ? ?; dd; facts s].
Ltac rmv := bnd; rewrite mkRemoval_ok by assumption; apply wp_lift.
Ltac pf := first [eapply ores_grp; [eassumption|..]; lia
  | apply fine_grp; [eapply misc_fine; [eassumption|congruence|congruence|lia]|cb; lia|cb; lia]
  | apply fine_grp; [eapply op_fine; [eassumption|congruence|congruence|lia]|cb; lia|cb; lia]
  | apply fine_grp; [eapply ident_fine; [eassumption|congruence|congruence|lia]|cb; lia|cb; lia]
  | apply fine_grp; [eapply fine_mono; [eassumption|lia|lia]|cb; lia|cb; lia]
  | apply grp_nil ].
Ltac ok_kind := match goal with H : ores _ _ ?s ?o _ |- opt _ ?o => exact (o_kind _ _ _ _ _ H) end.
Ltac froe := let E := fresh in intros E; cbn [begins] in *; match type of E with starts _ ?s _ =>
   match goal with B : pbuf s = _ :: _ |- _ => rewrite (starts_front _ _ _ _ _ B E); assumption end end.
Ltac tgoal t := match goal with H : tokok ?src ?m t |- _ => idtac end.
Ltac loc := apply local_mk; [first [exact Logic.I|left; discriminate|right; discriminate|idtac]|cb; try assumption|cb; try assumption|cb; try lia|cbn [typed]].
Ltac here := red; cb; match goal with |- ParseInv.starts _ ?s ?c => replace c with (basec s) by congruence; apply starts_self end.
Ltac mk l a b := apply (mk_ok _ _ l a b); [cb|pm|loc|cbn [extras]; try constructor|lia|lia|cb; lia|cb; lia].
Ltac cat_ m k := apply (grp_cat _ _ _ _ _ m k); [| |lia|lia|lia|lia]; try pf.
Ltac ws s := apply wp_withState; [assumption|]; intros s ? ? ? ? ? ? ? ? ? ? ? ?; facts s.
Ltac sw s := split; [assumption|split; [congruence|]]; intros s ? ? ? ? ? ? ? ? ? ? ? ?; facts s.
Ltac frontk t bf s E I :=
  destruct (front_ok _ t bf s I E) as (? & ? & ? & ?); tokf t.
Ltac ok_sok := match goal with H : ores _ _ ?s ?o _ |- opt _ ?o => exact (ores_sok _ _ _ _ _ H) end.
Ltac ar s := apply wp_addFix_rem; [assumption|lia|assumption|assumption|intros ?; first [apply (keeps_keyword _ _ (b "or"))|apply (keeps_keyword _ _ (b "if"))|apply (keeps_keyword _ _ (b "assert"))]; [listed|tokr]|]; intros s ? ? ?; dd; facts s.
Ltac ai s := apply wp_addFix_ins; [assumption|lia|assumption|discriminate|intros ?; eapply keeps_dummy; [listed|apply ins_inserts|exact Logic.I]|]; intros s ? ? ?; dd; facts s.
Ltac start_in := match goal with H : _ -> ParseInv.starts _ ?s ?c |- ParseInv.starts _ ?s ?c => apply H; discriminate end.
