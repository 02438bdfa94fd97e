(** The lookahead of parseExpr, the operators, and all functions together: the parser keeps [spec]. *)
From Verif Require Import Base Diag LexModel AstModel PSupModel SemaModel ParseModel LexSpec GramSpec GramFun1 AccSpec AccBase AccSema AccStep AccFun.
From Coq Require Import Lia.
Local Notation kvs := (list (tkind * bytes)).

Ltac kinds k := destruct k; try discriminate; try reflexivity.

(** * Precedences *)
Lemma closes_halts o k : closes o (Bin k) -> ~ misgrouped o (Bin k) -> halts k o = true.
Proof.
  intros (n1 & a1 & n2 & a2 & E1 & E2 & H) M.
  destruct o as [k1|k1|]; [destruct k1; try discriminate E1|destruct k1; try discriminate E1|reflexivity];
    destruct k; try discriminate E2; injection E1 as <- <-; injection E2 as <- <-; try reflexivity;
    try (exfalso; apply M; constructor; cbn; tauto); exfalso; intuition (lia || discriminate).
Qed.
Lemma closes_has o : closes o Has -> ~ misgrouped o Has -> halts tok_question o = true.
Proof.
  intros (n1 & a1 & n2 & a2 & E1 & E2 & H) M. injection E2 as <- <-.
  destruct o as [k1|k1|]; [destruct k1; try discriminate E1|destruct k1; try discriminate E1|reflexivity];
    injection E1 as <- <-; try reflexivity;
    try (exfalso; apply M; constructor; cbn; tauto); exfalso; intuition (lia || discriminate).
Qed.
Lemma nests_enters k o : nests (Bin k) o -> ~ misgrouped (Bin k) o -> enters (rbp k) o.
Proof.
  intros (n1 & a1 & n2 & a2 & E1 & E2 & H) M. destruct o as [k1|k1|]; cbn [enters]; auto.
  apply Nat.ltb_lt. destruct k; try discriminate E1; destruct k1; try discriminate E2; injection E1 as <- <-; injection E2 as <- <-; try reflexivity;
    try (exfalso; apply M; constructor; cbn; tauto); exfalso; intuition (lia || discriminate).
Qed.
Lemma nests_enters_un k o : nests (Pre k) o -> ~ misgrouped (Pre k) o -> enters (getUnaryBP k) o.
Proof.
  intros (n1 & a1 & n2 & a2 & E1 & E2 & H) M. destruct o as [k1|k1|]; cbn [enters]; auto.
  apply Nat.ltb_lt. destruct k; try discriminate E1; destruct k1; try discriminate E2; injection E1 as <- <-; injection E2 as <- <-; try reflexivity;
    try (exfalso; apply M; constructor; cbn; tauto); exfalso; intuition (lia || discriminate).
Qed.
Lemma binop_facts k : In k binops -> isBinOp k = true /\ fApp k = true /\ getBP k = Some (lbp k, rbp k) /\ 0 < lbp k.
Proof. intros H. cbn in H. repeat destruct H as [<-|H]; try (now repeat split; try apply Nat.ltb_lt; reflexivity). contradiction. Qed.

(** * The lookahead *)
Definition nac (k : tkind) : bool := match k with tok_at | tok_colon => false | _ => true end.
Definition looks (l : kvs) : Prop :=
  match l with
  | (tok_id, _) :: (k1, _) :: _ => nac k1 = true
  | (tok_l_curly, _) :: (tok_id, _) :: (k2, _) :: _ => k2 = tok_eq \/ k2 = tok_dot
  | (tok_l_curly, _) :: (tok_r_curly, _) :: (k2, _) :: _ => nac k2 = true
  | (tok_l_curly, _) :: (k1, _) :: _ => k1 = tok_kw_inherit
  | (k, _) :: _ => match k with tok_id | tok_l_curly | tok_kw_if | tok_kw_let | tok_kw_assert | tok_kw_with => False | _ => True end
  | [] => False
  end.
Lemma looks_simple t rest : wf LSimple t -> hd_ok nac rest -> looks (toks t ++ rest).
Proof.
  intros W K. destruct rest as [|[k v] rest]; [contradiction|]. cbn in K. inversion W; subst; try exact I; [exact K|].
  cbn [toks]. destruct r; [exact I|]. cbn [app]. destruct bs as [|d bs]; [exact K|]. inversion H; subst. cbn [flat_map]. inversion H3; subst.
  - cbn [btoks]. destruct p as [|x p]; [contradiction|]. destruct p; cbn; auto.
  - cbn [btoks app]. unfold tok_of. cbn. reflexivity.
Qed.
Lemma looks_sel t rest : wf LSel t -> hd_ok nac rest -> looks (toks t ++ rest).
Proof.
  intros W K. inversion W; subst; [now apply looks_simple|]. cbn [toks]. rewrite <- app_assoc. apply looks_simple; auto. reflexivity.
Qed.
Lemma looks_app t rest : wf LApp t -> hd_ok nac rest -> looks (toks t ++ rest).
Proof.
  intros W K. inversion W; subst; [now apply looks_sel|]. cbn [toks]. rewrite <- app_assoc. apply looks_sel; auto.
  apply sels_head; auto. intros k0 K0. kinds k0.
Qed.
Lemma looks_op t : forall rest, wf LOp t -> hd_ok nac rest -> looks (toks t ++ rest).
Proof.
  induction t; intros rest W K; inversion W; subst; try (now apply looks_app); cbn [toks].
  - cbn in H1. destruct H1 as [<-|[<-|[]]]; exact I.
  - rewrite <- app_assoc. apply IHt1; auto. cbn [app hd_ok tok_of]. cbn in H2. repeat destruct H2 as [<-|H2]; try reflexivity. contradiction.
  - rewrite <- app_assoc. apply IHt; auto. reflexivity.
Qed.
Lemma enters0 t : wf LOp t -> Forall (enters 0) (l_ops t).
Proof.
  induction t; intros W; try constructor; inversion W; subst; cbn; auto; try (inversion H0; fail); try (inversion H; fail).
  all: try (match goal with H : wf LApp _ |- _ => inversion H; subst end; match goal with H : wf LSel _ |- _ => inversion H; subst end; match goal with H : wf LSimple _ |- _ => inversion H end).
  now apply binop_facts.
Qed.
Lemma stop_fop ops rest : hd_ok stopE rest -> hd_ok (fOp ops) rest.
Proof.
  intros H. eapply hd_weaken; [exact H|]. intros k K. unfold fOp. replace (fApp k) with true by (kinds k). cbn. apply forallb_forall. intros o _.
  destruct o; cbn; auto; unfold ends; replace (isBinOp k) with false by (kinds k); kinds k.
Qed.
Lemma stop_ends bp rest : hd_ok stopE rest -> hd_ok (ends bp) rest.
Proof. intros H. eapply hd_weaken; [exact H|]. intros k K. unfold ends. replace (isBinOp k) with false by (kinds k). kinds k. Qed.

Section Expr.
Variables (src : bytes) (rec : nt -> P (option node)).
Hypothesis IH : keeps rec.
Lemma fw_peekk_cons n p y s k v l (Q : tkind -> pst -> Prop) l0 : At p y s l -> nth_error l n = Some (k, v) -> l0 = l ->
  (forall s', At p y s' l0 -> Q k s') -> fw (peekk n) s Q.
Proof. intros A E -> H. eapply fw_peekk; eauto. Qed.
Lemma f_looks p y l s (Q : option node -> pst -> Prop) : looks l -> At p y s l -> (forall s', At p y s' l -> fw (rec (QOp 0)) s' Q) -> fw (parseExpr rec) s Q.
Proof.
  intros L A K. unfold parseExpr. apply fw_bind. destruct l as [|[k v] l]; [contradiction|].
  eapply fw_peekk; [exact A|reflexivity|]. clear s A. intros s A. destruct k; try (now apply K); try contradiction.
  - destruct l as [|[k1 v1] l]; [contradiction|]. apply fw_bind. eapply fw_peekk; [exact A|reflexivity|]. clear s A. intros s A. cbn in L. destruct k1; try discriminate; now apply K.
  - destruct l as [|[k1 v1] l]; [contradiction|]. apply fw_bind. eapply fw_peekk; [exact A|reflexivity|]. clear s A. intros s A. cbn in L.
    destruct l as [|[k2 v2] l]; [destruct k1; try discriminate L; try contradiction; now apply K|].
    destruct k1; try discriminate L; try contradiction; try (now apply K).
    + apply fw_bind. eapply fw_peekk; [exact A|reflexivity|]. clear s A. intros s A. destruct L as [-> | ->]; now apply K.
    + apply fw_bind. eapply fw_peekk; [exact A|reflexivity|]. clear s A. intros s A. destruct k2; try discriminate; now apply K.
Qed.
Lemma f_expr p y t rest s : wf LExpr t -> hd_ok stopE rest -> At p y s (toks t ++ rest) -> fw (parseExpr rec) s (post (some_ (is_tree t) rest) p y).
Proof.
  intros W K A. inversion W; subst.
  - eapply f_looks; [apply looks_op; [eassumption|]|exact A|].
    + eapply hd_weaken; [exact K|]. intros k0 K0. kinds k0.
    + intros s' A'. eapply IH; [|exact A']. apply sp_op; auto; [now apply enters0|now apply stop_fop|now apply stop_ends].
  - unfold parseExpr. apply fw_bind. eapply fw_peekk; [exact A|reflexivity|]. clear s A. intros s A. eapply IH; [|exact A]. now apply sp_if.
  - unfold parseExpr. apply fw_bind. eapply fw_peekk; [exact A|reflexivity|]. clear s A. intros s A. eapply IH; [|exact A]. now apply sp_assert.
  - unfold parseExpr. apply fw_bind. eapply fw_peekk; [exact A|reflexivity|]. clear s A. intros s A. eapply IH; [|exact A]. now apply sp_with.
  - unfold parseExpr. apply fw_bind. eapply fw_peekk; [exact A|reflexivity|]. clear s A. intros s A. apply fw_bind.
    assert (X : exists k v l, nth_error (toks (Let_ bs e) ++ rest) 1 = Some (k, v) /\ tkind_beq k tok_l_curly = false /\ l = 0).
    { destruct bs as [|d bs]; [eexists _, _, _; split; [reflexivity|split; reflexivity]|]. inversion H; subst. destruct d as [p_ e0|f xs].
      - destruct p_ as [|x p_]; [inversion H4; contradiction|]. destruct p_; (eexists _, _, _; split; [reflexivity|split; reflexivity]).
      - eexists _, _, _; split; [reflexivity|split; reflexivity]. }
    destruct X as (k & v & _ & E & B & _). eapply fw_peekk; [exact A|exact E|]. clear s A. intros s A. rewrite B. eapply IH; [|exact A]. now apply sp_let.
  - unfold parseExpr. apply fw_bind. eapply fw_peekk; [exact A|reflexivity|]. clear s A. intros s A. apply fw_bind. eapply fw_peekk; [exact A|reflexivity|].
    clear s A. intros s A. eapply IH; [|exact A]. now apply sp_lam.
  - assert (G : forall s', At p y s' (toks (LamSet bf fs el af e) ++ rest) -> fw (rec QLambda) s' (post (some_ (is_tree (LamSet bf fs el af e)) rest) p y)).
    { intros s' A'. eapply IH; [|exact A']. now apply sp_lamset. }
    assert (AC : forall l, exists k v l', match af with Some x => [tok_of tok_at; name_tok x] | None => [] end ++ tok_of tok_colon :: l = (k, v) :: l' /\
       (k = tok_at \/ k = tok_colon)).
    { intros l. destruct af as [x|]; (eexists _, _, _; split; [reflexivity|]); auto. }
    rewrite lamset_toks in *. unfold arg_toks in *. rewrite <- !app_assoc in *. cbn [app] in *.
    unfold parseExpr. apply fw_bind. destruct bf as [x|]; cbn [app] in *.
    + eapply fw_peekk; [exact A|reflexivity|]. clear s A. intros s A. apply fw_bind. eapply fw_peekk; [exact A|reflexivity|].
      clear s A. intros s A. now apply G.
    + destruct (AC (toks e ++ rest)) as (k & v & l' & E & Hk). rewrite E in *.
      eapply fw_peekk; [exact A|reflexivity|]. clear s A. intros s A. apply fw_bind.
      destruct fs as [|[x d] fs]; cbn [ftoks sep ftok fst snd app] in *.
      * destruct el; cbn [app] in *.
        -- eapply fw_peekk; [exact A|reflexivity|]. clear s A. intros s A. now apply G.
        -- eapply fw_peekk; [exact A|reflexivity|]. clear s A. intros s A. apply fw_bind. eapply fw_peekk; [exact A|reflexivity|]. clear s A. intros s A.
           destruct Hk as [-> | ->]; now apply G.
      * eapply fw_peekk; [exact A|reflexivity|]. clear s A. intros s A. apply fw_bind. destruct d as [d|]; cbn [app] in *.
        -- eapply fw_peekk; [exact A|reflexivity|]. clear s A. intros s A. now apply G.
        -- destruct fs as [|f fs]; [destruct el|]; cbn [ftoks sep app] in *.
           ++ eapply fw_peekk; [exact A|reflexivity|]. clear s A. intros s A. now apply G.
           ++ eapply fw_peekk; [exact A|reflexivity|]. clear s A. intros s A. apply fw_bind. eapply fw_peekk; [exact A|reflexivity|]. clear s A. intros s A.
              destruct Hk as [-> | ->]; now apply G.
           ++ eapply fw_peekk; [exact A|reflexivity|]. clear s A. intros s A. now apply G.
Qed.
End Expr.
