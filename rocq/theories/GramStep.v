(** For C68: what each parsing function reads when it reports no error. *)
From Verif Require Import Base Diag LexModel LexSpec LexProofs AstModel PSupModel SemaModel ParseModel ParseSpec
  ParseInv GramSpec GramBase GramMono.

Section Step.
Context {Qt : Quiet}.
Context {at_ : node -> list item -> Prop}.
Notation G := (gram_at false at_).

(** * The grammar *)
Lemma eq_gram X i i' : G X i -> i = i' -> G X i'.
Proof. now intros H <-. Qed.
Lemma flatten_app a c : flatten (a ++ c) = flatten a ++ flatten c.
Proof. unfold flatten. now rewrite flat_map_app. Qed.
Lemma flatten_merge fs : flatten (mergeFragments fs) = flatten fs.
Proof.
  unfold mergeFragments. destruct fs as [|f fs]; auto. destruct (existsb _ _) eqn:E; auto.
  revert E. generalize (f :: fs). clear. intros l. unfold flatten. simpl. rewrite app_nil_r.
  induction l as [|[t|n] l IH]; simpl; auto; [|discriminate]. intros E. now rewrite map_app, IH.
Qed.

Definition shape (X : sym) (its : list item) : Prop :=
  match X with
  | Expr _ | Op _ | App _ | Sel _ | Simple _ =>
      2 <= List.length its \/ exists it, its = [it] /\ kind_of_item it <> tok_l_curly
  | Frags _ _ => 2 <= List.length its \/ exists it, its = [it] /\ kind_of_item it = tok_path_fragment
  | Str _ _ => 2 <= List.length its
  | Sels ns | Names ns | Binds ns => ns <> [] -> 1 <= List.length its
  | BindsO (Some _) | Interp _ _ _ | Name _ | AttrPath _ | Bind _ | FormalSet _ | Arg _ => 1 <= List.length its
  | _ => True
  end.
Lemma gram_shape X its : G X its -> shape X its.
Proof.
  induction 1; cbn [shape] in *; rewrite ?app_length; cbn [List.length]; auto; try lia; try (left; lia).
  all: try (right; eexists; split; [reflexivity|cbn; discriminate]).
  all: try (destruct IHgram_at as [IH|(it & -> & K)]; [now left|right; exists it; rewrite ?K; split; auto; discriminate]).
  all: repeat match goal with H : _ \/ (exists _, _) |- _ => destruct H as [H|(? & -> & ?)] end.
  all: cbn [List.length] in *; try (left; lia).
  all: try (match goal with H : ?x <> [] -> _ |- _ => try (left; specialize (H ltac:(assumption)); lia) end).
  all: try (right; eexists; split; [reflexivity|reflexivity]).
  all: try (intros; lia); intros []; reflexivity.
Qed.
Lemma expr_len n its : G (Expr n) its -> 1 <= List.length its.
Proof. intros H. apply gram_shape in H. destruct H as [H|(it & -> & _)]; simpl in *; lia. Qed.
Lemma app_edges X its : G X its ->
  match X with App n | Sel n | Simple n | Str _ n => right_edge n = [] /\ left_edge n = [] | _ => True end.
Proof. induction 1; auto. Qed.

Lemma gram_nil X its : G X its ->
  match X with Sels ns | Names ns | Binds ns => ns = [] -> its = [] | _ => True end.
Proof. induction 1; auto; intros E0; now destruct ns. Qed.

(** * Precedence *)
Definition okb (k : tkind) (o : opr) : Prop :=
  (isBinOp k = true -> closes_ false o (Bin k)) /\ (k = tok_question -> closes_ false o Has).
Definition above (bp : nat) (o : opr) : Prop :=
  match o with
  | Bin k => isBinOp k = true /\ exists l r, getBP k = Some (l, r) /\ bp < l
  | Has => True
  | Pre _ => False
  end.
Definition stops (bp : nat) (k : tkind) : Prop :=
  k <> tok_question /\ (isBinOp k = true -> exists l r, getBP k = Some (l, r) /\ l < bp).
Definition closesb (o1 o2 : opr) : bool :=
  match documented_op o1, documented_op o2 with
  | Some (n1, a1), Some (n2, a2) =>
      Nat.ltb n2 n1 || (Nat.eqb n1 n2 && match a1, a2 with LeftA, LeftA => true | _, _ => false end)
  | _, _ => false
  end.
Definition nestsb (o1 o2 : opr) : bool :=
  match documented_op o1, documented_op o2 with
  | Some (n1, a1), Some (n2, a2) =>
      Nat.ltb n1 n2 || (Nat.eqb n1 n2 && match a1, a2 with RightA, RightA => true | _, _ => false end)
  | _, _ => false
  end.
Definition misb (o1 o2 : opr) : bool :=
  match o1, o2 with
  | Bin (tok_op_mul | tok_op_div | tok_op_concat), Bin tok_op_div => true
  | Bin tok_op_pipe_into, Bin tok_op_pipe_into => true
  | Bin tok_op_pipe_from, Bin tok_op_pipe_from => true
  | Pre tok_op_not, Bin tok_op_update => true
  | Pre tok_op_negate, Has => true
  | Has, Has => true
  | _, _ => false
  end.
Lemma misb_ok o1 o2 : misb o1 o2 = true -> misgrouped o1 o2.
Proof.
  intros H. destruct o1 as [k1|k1|]; [destruct k1|destruct k1|]; try discriminate H;
    destruct o2 as [k2|k2|]; try discriminate H; try (destruct k2; try discriminate H); constructor; simpl; tauto.
Qed.
Lemma closesb_ok o1 o2 : closesb o1 o2 || misb o1 o2 = true -> closes_ false o1 o2.
Proof.
  intros H. apply orb_true_iff in H as [H|H]; [left|right; split; auto using misb_ok].
  unfold closesb in H. unfold closes. destruct (documented_op o1) as [[n1 a1]|]; try discriminate.
  destruct (documented_op o2) as [[n2 a2]|]; try discriminate. exists n1, a1, n2, a2. split; auto. split; auto.
  apply orb_true_iff in H as [H|H]; [left; now apply Nat.ltb_lt|]. apply andb_true_iff in H as [H1 H2].
  apply Nat.eqb_eq in H1. right. destruct a1, a2; try discriminate. auto.
Qed.
Lemma nestsb_ok o1 o2 : nestsb o1 o2 || misb o1 o2 = true -> nests_ false o1 o2.
Proof.
  intros H. apply orb_true_iff in H as [H|H]; [left|right; split; auto using misb_ok].
  unfold nestsb in H. unfold nests. destruct (documented_op o1) as [[n1 a1]|]; try discriminate.
  destruct (documented_op o2) as [[n2 a2]|]; try discriminate. exists n1, a1, n2, a2. split; auto. split; auto.
  apply orb_true_iff in H as [H|H]; [left; now apply Nat.ltb_lt|]. apply andb_true_iff in H as [H1 H2].
  apply Nat.eqb_eq in H1. right. destruct a1, a2; try discriminate. auto.
Qed.
Lemma isBinOp_in k : isBinOp k = true -> In k binops.
Proof. intros H. unfold binops. destruct k; try discriminate H; simpl; tauto. Qed.
Definition lbp k := match getBP k with Some (l, _) => l | None => 0 end.
Definition rbp k := match getBP k with Some (_, r) => r | None => 0 end.
(** an operator that stops the right operand closes it *)
Lemma T_close k k' : isBinOp k = true -> isBinOp k' = true -> lbp k' < rbp k -> closes_ false (Bin k) (Bin k').
Proof.
  intros H1 H2 H. apply closesb_ok. apply isBinOp_in in H1, H2.
  assert (D : forallb (fun k => forallb (fun k' => negb (Nat.ltb (lbp k') (rbp k)) ||
     (closesb (Bin k) (Bin k') || misb (Bin k) (Bin k'))) binops) binops = true) by (vm_compute; reflexivity).
  rewrite forallb_forall in D. specialize (D k H1). rewrite forallb_forall in D. specialize (D k' H2).
  apply Nat.ltb_lt in H. rewrite H in D. exact D.
Qed.
Lemma T_nest k k' : isBinOp k = true -> isBinOp k' = true -> rbp k < lbp k' -> nests_ false (Bin k) (Bin k').
Proof.
  intros H1 H2 H. apply nestsb_ok. apply isBinOp_in in H1, H2.
  assert (D : forallb (fun k => forallb (fun k' => negb (Nat.ltb (rbp k) (lbp k')) ||
     (nestsb (Bin k) (Bin k') || misb (Bin k) (Bin k'))) binops) binops = true) by (vm_compute; reflexivity).
  rewrite forallb_forall in D. specialize (D k H1). rewrite forallb_forall in D. specialize (D k' H2).
  apply Nat.ltb_lt in H. rewrite H in D. exact D.
Qed.
Lemma T_has k : isBinOp k = true -> nests_ false (Bin k) Has /\ closes_ false Has (Bin k).
Proof. intros H. destruct k; try discriminate H; (split; [apply nestsb_ok|apply closesb_ok]; reflexivity). Qed.
Lemma T_unary u k : In u [tok_op_not; tok_op_negate] -> isBinOp k = true ->
  (lbp k < getUnaryBP u -> closes_ false (Pre u) (Bin k)) /\ (getUnaryBP u < lbp k -> nests_ false (Pre u) (Bin k)).
Proof.
  intros Hu Hk. apply isBinOp_in in Hk.
  assert (D : forallb (fun u => forallb (fun k =>
     (negb (Nat.ltb (lbp k) (getUnaryBP u)) || (closesb (Pre u) (Bin k) || misb (Pre u) (Bin k))) &&
     (negb (Nat.ltb (getUnaryBP u) (lbp k)) || (nestsb (Pre u) (Bin k) || misb (Pre u) (Bin k)))) binops)
     [tok_op_not; tok_op_negate] = true) by (vm_compute; reflexivity).
  rewrite forallb_forall in D. specialize (D u Hu). rewrite forallb_forall in D. specialize (D k Hk).
  apply andb_true_iff in D as [D1 D2]. split; intros H; apply Nat.ltb_lt in H.
  - rewrite H in D1. now apply closesb_ok.
  - rewrite H in D2. now apply nestsb_ok.
Qed.
Lemma T_unary_has u : In u [tok_op_not; tok_op_negate] -> nests_ false (Pre u) Has.
Proof. intros [<-|[<-|[]]]; apply nestsb_ok; reflexivity. Qed.
Lemma T_has_has : closes_ false Has Has.
Proof. apply closesb_ok. reflexivity. Qed.
Lemma okb_has k : okb k Has.
Proof. split; [intros H; now apply T_has|intros; apply T_has_has]. Qed.
Lemma okb_stop k k' : isBinOp k = true -> stops (rbp k) k' -> okb k' (Bin k).
Proof.
  intros Hk [H1 H2]. split; [|now intros]. intros H. destruct (H2 H) as (l & r & E & Hl). apply T_close; auto.
  unfold lbp. now rewrite E.
Qed.
Lemma okb_unary u k' : In u [tok_op_not; tok_op_negate] -> stops (getUnaryBP u) k' -> okb k' (Pre u).
Proof.
  intros Hu [H1 H2]. split; [|now intros]. intros H. destruct (H2 H) as (l & r & E & Hl). apply T_unary; auto.
  unfold lbp. now rewrite E.
Qed.
Lemma above_nests k l : isBinOp k = true -> Forall (above (rbp k)) l -> Forall (nests_ false (Bin k)) l.
Proof.
  intros Hk. apply Forall_impl. intros [k'|k'|]; cbn [above]; intros H; [|destruct H|now apply T_has].
  destruct H as (H1 & l0 & r & E & H). apply T_nest; auto. unfold lbp. now rewrite E.
Qed.
Lemma above_unary u l : In u [tok_op_not; tok_op_negate] -> Forall (above (getUnaryBP u)) l ->
  Forall (nests_ false (Pre u)) l.
Proof.
  intros Hu. apply Forall_impl. intros [k'|k'|]; cbn [above]; intros H; [|destruct H|now apply T_unary_has].
  destruct H as (H1 & l0 & r & E & H). apply T_unary; auto. unfold lbp. now rewrite E.
Qed.

(** * Formals before they are checked *)
Inductive rawf : node -> list item -> Prop :=
| rf_id i r ii ri v d i1 : G (Default d) i1 ->
    rawf (NFormal i r None (Some (NIdent ii ri v)) d None) ([E tok_id v] ++ i1)
| rf_cid i r c v0 ii ri v d i1 : G (Default d) i1 ->
    rawf (NFormal i r (Some c) (Some (NIdent ii ri v)) d None) ([E tok_comma v0; E tok_id v] ++ i1)
| rf_ell i r el v : rawf (NFormal i r None None None (Some el)) [E tok_ellipsis v]
| rf_cell i r c v0 el v : rawf (NFormal i r (Some c) None None (Some el)) [E tok_comma v0; E tok_ellipsis v]
| rf_comma i r c v0 : rawf (NFormal i r (Some c) None None None) [E tok_comma v0].
Inductive raws : list node -> list item -> Prop :=
| raws_nil : raws [] []
| raws_snoc l n i1 i2 : raws l i1 -> rawf n i2 -> raws (l ++ [n]) (i1 ++ i2).

Lemma inits_snoc l n : inits (l ++ [n]) = l.
Proof.
  induction l as [|a l IH]; auto. destruct l as [|a2 l]; [reflexivity|].
  change (inits ((a :: a2 :: l) ++ [n])) with (a :: inits ((a2 :: l) ++ [n])). now rewrite IH.
Qed.
Lemma formals_ok_snoc l n : forall f, formals_ok f (l ++ [n]) ->
  formals_ok f l /\ (f = false \/ l <> [] -> f_comma n <> None).
Proof.
  induction l as [|a l IH]; intros f; cbn [formals_ok app].
  - intros [H _]. split; auto. intros [->|[]]; auto.
  - intros [H1 H2]. destruct (IH _ H2) as [H3 H4]. split; auto.
Qed.
Definition idf (n : node) : Prop := f_ell n = None /\ (f_comma n = None \/ f_id n <> None \/ f_ell n <> None).
Lemma raws_formals l its : raws l its -> formals_ok true l -> Forall idf l ->
  (l = [] /\ its = []) \/ (l <> [] /\ G (Formals true l) its).
Proof.
  induction 1 as [|l n i1 i2 H IH Hr]; [auto|]. intros H1 H2. apply formals_ok_snoc in H1 as [H1 H3].
  apply Forall_app in H2 as [H2 H4]. inversion_clear H4 as [|? ? [E1 E2] _].
  right. split; [now destruct l|]. destruct (IH H1 H2) as [[-> ->]|[Hl Hg]].
  - inversion Hr; subst; cbn [f_ell f_comma f_id app] in *; try discriminate.
    + now apply g_formals_first.
    + now apply g_formals_comma.
    + destruct E2 as [?|[[]|[]]]; congruence.
  - specialize (H3 (or_intror Hl)).
    inversion Hr; subst; cbn [f_ell f_comma f_id app] in *; try congruence; try discriminate.
    + eapply eq_gram; [eapply g_formals_next; eauto|reflexivity].
    + destruct E2 as [?|[[]|[]]]; congruence.
Qed.
Lemma raws_set l its i r d v1 v2 : raws l its -> formals_ok true l ->
  Forall (fun n => f_ell n = None) (inits l) ->
  Forall (fun n => f_comma n = None \/ f_id n <> None \/ f_ell n <> None) (inits l) ->
  G (FormalSet (NFormals i r l d)) ([E tok_l_curly v1] ++ its ++ [E tok_r_curly v2]).
Proof.
  intros H H1 H2 H3. destruct H as [|l n i1 i2 H Hr].
  { eapply eq_gram; [eapply g_formal_set; apply g_formals_nil|reflexivity]. }
  rewrite inits_snoc in *. apply formals_ok_snoc in H1 as [H1 H4].
  assert (Hid : Forall idf l).
  { rewrite Forall_forall in *. intros x Hx. split; auto. }
  destruct (raws_formals _ _ H H1 Hid) as [[-> ->]|[Hl Hg]].
  - inversion Hr; subst; cbn [app].
    + eapply eq_gram; [eapply g_formal_set; apply g_formals_first; eauto|]. reflexivity.
    + eapply eq_gram; [eapply g_formal_set; apply g_formals_comma; eauto|]. reflexivity.
    + apply g_formal_set_only_ell.
    + now apply g_formal_set_odd_ell.
    + now apply g_formal_set_odd.
  - specialize (H4 (or_intror Hl)).
    inversion Hr; subst; cbn [f_comma] in *; try congruence.
    + eapply eq_gram; [eapply g_formal_set; eapply g_formals_next; eauto|]. cbn [app]. now rewrite <- ?app_assoc.
    + eapply eq_gram; [eapply g_formal_set_ell; eauto|]. cbn [app]. now rewrite <- ?app_assoc.
    + eapply eq_gram; [eapply g_formal_set_comma; eauto|]. cbn [app]. now rewrite <- ?app_assoc.
Qed.

(** * Tokens *)
Variable src : bytes.
Notation J := (J src). Notation fl := (fl src). Notation tokok := (tokok src).

Lemma fl_J c its c' : fl c its c' -> J c'.
Proof. apply f_J. Qed.
Lemma fl_mode c its c' : fl c its c' -> cmode c' = cmode c.
Proof. intros H. unfold cmode. now rewrite (f_modes _ _ _ _ H). Qed.
Lemma fl_nil_r c its c' c2 : fl c its c' -> fl c' [] c2 -> fl c its c2.
Proof. intros H1 H2. rewrite <- (app_nil_r its). eapply fl_trans; eauto. Qed.

Lemma r_peek_known c t bf (Q : token -> core_ -> Prop) : cbuf c = t :: bf -> Q t c -> cl (peek 0) c Q.
Proof.
  intros E H s a s' Ec Ep _ _. subst c. cbn in E. unfold peek in Ep. rewrite E in Ep. cbn in Ep. rewrite E in Ep.
  cbn in Ep. injection Ep as <- <-. exact H.
Qed.
Lemma r_peek c0 its c (Q : token -> core_ -> Prop) :
  fl c0 its c -> (forall t c' bf, fl c0 its c' -> cbuf c' = t :: bf -> pk c t c' -> Q t c') -> cl (peek 0) c Q.
Proof.
  intros F H. apply (cl_peek0 src); [eapply fl_J; eauto|]. intros t c' P J'. destruct (pk_front _ _ _ P) as [bf E].
  eapply H; eauto. eapply fl_nil_r; eauto. eapply pk_fl; eauto.
Qed.
Lemma r_peekk_known c t bf (Q : tkind -> core_ -> Prop) : cbuf c = t :: bf -> Q (tk t) c -> cl (peekk 0) c Q.
Proof.
  intros E H. apply cl_bind; [apply mono_peek|intros; apply mono_ret|]. eapply r_peek_known; eauto. now apply cl_ret.
Qed.
Lemma r_peekk c0 its c (Q : tkind -> core_ -> Prop) :
  fl c0 its c -> (forall t c' bf, fl c0 its c' -> cbuf c' = t :: bf -> pk c t c' -> Q (tk t) c') -> cl (peekk 0) c Q.
Proof.
  intros F H. apply cl_bind; [apply mono_peek|intros; apply mono_ret|]. eapply r_peek; eauto. intros.
  apply cl_ret. eauto.
Qed.
Lemma r_lCur c0 its c (Q : cursor -> core_ -> Prop) :
  fl c0 its c -> (forall t c' bf, fl c0 its c' -> cbuf c' = t :: bf -> pk c t c' -> Q (lcur (trange t)) c') ->
  cl lCur c Q.
Proof.
  intros F H. apply cl_bind; [apply mono_peek|intros; apply mono_ret|]. eapply r_peek; eauto. intros.
  apply cl_ret. eauto.
Qed.
Lemma r_consume c0 its c t bf (Q : unit -> core_ -> Prop) :
  fl c0 its c -> cmode c0 = PS_Expr -> cbuf c = t :: bf ->
  (fl c0 (its ++ [E (tk t) (tview t)]) (pop t c) -> tokok PS_Expr t -> Q tt (pop t c)) -> cl consume c Q.
Proof.
  intros F Hm Eb H. eapply cl_consume; eauto. pose proof (fl_mode _ _ _ F) as Em. rewrite Hm in Em. apply H.
  - eapply fl_trans; eauto. unfold E. rewrite <- Em. eapply pop_fl; eauto using fl_J. discriminate.
  - rewrite <- Em. eapply J_tok; eauto using fl_J.
Qed.
Lemma r_consume_glued c0 its c t bf (Q : unit -> core_ -> Prop) :
  fl c0 its c -> tight c -> cbuf c = t :: bf ->
  (fl c0 (its ++ [It true (cmode c) (tk t) (tview t)]) (pop t c) -> tokok (cmode c) t -> Q tt (pop t c)) ->
  cl consume c Q.
Proof.
  intros F Hm Eb H. eapply cl_consume; eauto. apply H.
  - eapply fl_trans; eauto. eapply pop_fl; eauto using fl_J.
  - eapply J_tok; eauto using fl_J.
Qed.
Lemma r_expect k c0 its c (Q : option token -> core_ -> Prop) :
  fl c0 its c ->
  (forall t c' bf, fl c0 its c' -> cbuf c' = t :: bf -> tk t = k -> pk c t c' -> Q (Some t) c') ->
  cl (expect src k) c Q.
Proof.
  intros F H. apply cl_expect; [eapply fl_J; eauto|]. intros t c' P J' K. destruct (pk_front _ _ _ P) as [bf E].
  eapply H; eauto. eapply fl_nil_r; eauto. eapply pk_fl; eauto.
Qed.
Lemma r_remove c0 its c (Q : bool -> core_ -> Prop) :
  fl c0 its c -> (forall t c' bf, fl c0 its c' -> cbuf c' = t :: bf -> Q false c') ->
  cl (removeUnexpected src) c Q.
Proof.
  intros F H. apply cl_removeUnexpected; [eapply fl_J; eauto|]. intros t c' P J'. destruct (pk_front _ _ _ P) as [bf E].
  eapply H; eauto. eapply fl_nil_r; eauto. eapply pk_fl; eauto.
Qed.

(** lexical modes *)
Lemma push_buf m c : cbuf (push src m c) = [].
Proof. unfold push. cbn. apply resetc_buf. Qed.
Lemma popm_buf c : cbuf (popm src c) = [].
Proof. unfold popm. cbn. apply resetc_buf. Qed.
Lemma push_mode m c : cmode (push src m c) = m.
Proof. reflexivity. Qed.
Lemma push_modes m c : cmodes (push src m c) = m :: cmodes c.
Proof. unfold push, resetc. cbn. destruct (cbuf c); reflexivity. Qed.
Lemma popm_modes c : cmodes (popm src c) = tl (cmodes c).
Proof. unfold popm, resetc. cbn. destruct (cbuf c); reflexivity. Qed.
Lemma push_tight m c : cbuf c = [] -> tight c -> tight (push src m c).
Proof. intros E. unfold tight, push, resetc, cbase, clastp. rewrite E. cbn. rewrite E. auto. Qed.
Lemma popm_tight c : cbuf c = [] -> tight c -> tight (popm src c).
Proof. intros E. unfold tight, popm, resetc, cbase, clastp. rewrite E. cbn. rewrite E. auto. Qed.
Lemma fl_state c0 i0 c1 m its c2 :
  i0 <> [] -> fl c0 i0 c1 -> cbuf c1 = [] -> fl (push src m c1) its c2 -> fl c0 (i0 ++ its) (popm src c2).
Proof.
  intros Hi0 F1 E F2.
  assert (Hlen : List.length (cbuf c0) <= List.length i0).
  { destruct (le_lt_dec (List.length (cbuf c0)) (List.length i0)) as [H|H]; auto.
    pose proof (f_b1 _ _ _ _ F1 H) as E1. rewrite E in E1. apply (f_equal (@List.length _)) in E1.
    rewrite skipn_length in E1. cbn in E1. lia. }
  pose proof (f_modes _ _ _ _ F2) as Em. rewrite push_modes in Em.
  pose proof (f_modes _ _ _ _ F1) as Em1.
  constructor.
  - eapply J_popm; [eapply fl_J; exact F2|exact Em|]. apply (j_modes _ _ (fl_J _ _ _ F1)).
  - rewrite popm_modes, Em. exact Em1.
  - rewrite popm_seq. eapply seq_app; [apply (f_seq _ _ _ _ F1)|]. rewrite <- (push_seq src m c1). apply (f_seq _ _ _ _ F2).
  - rewrite app_length. lia.
  - rewrite popm_buf. cbn. lia.
  - intros i it t H1 H2. assert (i < List.length (cbuf c0)) by (apply nth_error_Some; congruence).
    rewrite nth_error_app1 in H1 by lia. eapply (f_b3 _ _ _ _ F1); eauto.
  - intros Hq. pose proof (f_first _ _ _ _ F1 Hq) as Hf. destruct i0 as [|x i0]; [congruence|]. cbn [app].
    destruct Hf as (p & H1 & H2). exists p. split; auto. change (x :: i0 ++ its) with ((x :: i0) ++ its).
    eapply first_app; [exact H2|]. rewrite popm_seq. rewrite <- (push_seq src m c1). apply (f_seq _ _ _ _ F2).
Qed.
Lemma fl_path c1 t its c2 :
  J c1 -> cbuf c1 = [t] -> tk t = tok_path_fragment -> its <> [] ->
  fl (push src PS_Path c1) its c2 -> fl c1 its (popm src c2).
Proof.
  intros J1 E K Hn F2. pose proof (fl_refl _ _ (J_push src PS_Path _ J1)) as F2'. pose proof (f_modes _ _ _ _ F2) as Em. rewrite push_modes in Em.
  constructor.
  - eapply J_popm; [eapply fl_J; exact F2|exact Em|]. apply (j_modes _ _ J1).
  - now rewrite popm_modes, Em.
  - rewrite popm_seq. rewrite <- (push_seq src PS_Path c1). apply (f_seq _ _ _ _ F2).
  - rewrite E. destruct its; [congruence|]. cbn. lia.
  - rewrite popm_buf. cbn. lia.
  - intros i it t' H1 H2. right. rewrite E in H2. destruct i as [|[|i]]; [|discriminate..]. injection H2 as <-. exact K.
  - intros Hq. pose proof (f_first _ _ _ _ F2 Hq) as Hf. destruct its as [|x its]; [congruence|].
    destruct Hf as (p & H1 & H2). rewrite popm_seq. exists p. split; [|exact H2].
    unfold front in *. rewrite push_buf in H1. rewrite E. destruct H1 as (t2 & l2 & El & ->). rewrite push_mode in El.
    assert (X : good src (Lst (ccur (push src PS_Path c1)) (crest (push src PS_Path c1)) [])) by exact (j_good _ _ (fl_J _ _ _ F2')).
    apply (lex_gives src _ _ _ _ X) in El. clear X. rename El into X.
    destruct X as (_ & _ & _ & _ & X). rewrite X by discriminate. cbn. unfold push, resetc. rewrite E. reflexivity.
Qed.

(** looking further ahead *)
Lemma fl_ext c c1 its c' more :
  clast c1 = clast c -> cmodes c1 = cmodes c -> cbuf c1 = cbuf c ++ more ->
  (silent = true -> forall p, front c1 p -> front c p) ->
  (more <> [] -> List.length (cbuf c1) <= S (List.length its)) -> fl c1 its c' -> fl c its c'.
Proof.
  intros E1 E2 E3 Hf Hl [A1 A2 A3 A4 A5 A6 A7].
  assert (A8 : silent = true -> match its with [] => forall p, front c' p -> front c p
    | _ => exists p, front c p /\ first_at src p its (clastp c') end).
  { intros Hq. specialize (A7 Hq). specialize (Hf Hq). destruct its; [auto|]. destruct A7 as (p & H1 & H2). eauto. }
  clear A7. destruct more as [|x more].
  { rewrite app_nil_r in E3. constructor; auto.
    - congruence.
    - unfold clastp in *. now rewrite <- E1.
    - rewrite <- E3. exact A4.
    - rewrite <- E3. exact A5.
    - rewrite <- E3. exact A6. }
  specialize (Hl ltac:(discriminate)). pose proof (f_equal (@List.length _) E3) as E4. rewrite app_length in E4. cbn in E4.
  constructor; auto.
  - congruence.
  - unfold clastp in *. now rewrite <- E1.
  - lia.
  - intros _. destruct (le_lt_dec (List.length (cbuf c1)) (List.length its)) as [H|H]; auto.
    rewrite (A4 H), skipn_length. lia.
  - intros i it t H1 H2. apply (A6 i it t H1). rewrite E3, nth_error_app1; auto. apply nth_error_Some. congruence.
Qed.
End Step.
