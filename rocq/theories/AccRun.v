(** The parser keeps [spec]: by induction on the fuel, and for operator expressions on the term. *)
From Verif Require Import Base Diag LexModel AstModel PSupModel SemaModel ParseModel LexSpec GramSpec GramFun1 AccSpec AccBase AccSema AccStep AccFun AccOp.
From Coq Require Import Lia.
Local Notation kvs := (list (tkind * bytes)).

Section Run.
Variable src : bytes.

Lemma op_app f t bp rest s p y (Q : option node -> pst -> Prop) : (forall g, g < f -> keeps (run src g)) -> wf LApp t -> hd_ok fApp rest -> At p y s (toks t ++ rest) ->
  (forall g n s', g < f -> is_tree t n -> At true y s' rest -> fw (run src g (QOpLoop bp n)) s' Q) -> fw (run src f (QOp bp)) s Q.
Proof.
  intros IH W K A H. destruct f as [|f]; [exact I|]. cbn [run step]. unfold parseExprOpBP. apply fw_bind.
  assert (Hd : hd_ok simple_start (toks t ++ rest)) by (apply hd_app, app_head; assumption).
  eapply fw_lCur_hd; [|exact A|]; [intros E; rewrite E in Hd; exact Hd|]. clear s A. intros c s A. apply fw_bind.
  eapply fw_peek_hd; [exact A|exact Hd|]. clear s A. intros tk_ s T A. apply fw_bind.
  assert (X : fw (run src f QApp) s (fun prefix s' => fw (match prefix with None => ret None | Some p => run src f (QOpLoop bp p) end) s' Q)).
  { eapply call_some; [apply IH; lia|apply sp_app; eassumption|exact A|]. intros n s' N A'. apply H; auto. }
  destruct (tk tk_); try exact X; discriminate.
Qed.
Lemma op_cps f : (forall g, g < f -> keeps (run src g)) -> forall t bp rest s p y (Q : option node -> pst -> Prop), wf LOp t -> Forall (enters bp) (l_ops t) ->
  hd_ok (fOp (r_ops t)) rest -> At p y s (toks t ++ rest) ->
  (forall g n s', g < f -> is_tree t n -> At true y s' rest -> fw (run src g (QOpLoop bp n)) s' Q) -> fw (run src f (QOp bp)) s Q.
Proof.
  intros IH. assert (Fa : forall ops rest, hd_ok (fOp ops) rest -> hd_ok fApp rest).
  { intros ops rest H. eapply hd_weaken; [exact H|]. intros k K. unfold fOp in K. apply andb_prop in K. apply K. }
  assert (Fo : forall o ops rest, hd_ok (fOp (o :: ops)) rest -> hd_ok (fOp ops) rest /\ hd_ok (fun k => halts k o) rest).
  { intros o ops rest H. split; (eapply hd_weaken; [exact H|]); intros k K; unfold fOp in *; cbn [forallb] in K;
      apply andb_prop in K; destruct K as [K1 K]; apply andb_prop in K; destruct K as [K2 K]; auto. now rewrite K1, K. }
  induction t; intros bp rest s p_ y Q W E K A H; inversion W; subst; try (eapply op_app; eauto; fail).
  - (* unary *) destruct f as [|f]; [exact I|]. cbn [run step]. unfold parseExprOpBP. cbn [toks app l_ops r_ops] in *.
    apply fw_bind. eapply fw_lCur; [exact A|]. clear s A. intros c s A. apply fw_bind. eapply fw_peek; [exact A|reflexivity|]. clear s A. intros t1 s T V A.
    apply Fo in K. destruct K as [K1 K2]. rewrite T. apply fw_bind.
    assert (X : fw (do! PSupModel.consume in do! assertLast in let! io := fresh in let! e := run src f (QOp (getUnaryBP k)) in
         do! (match e with Some _ => ret tt | None => match k with tok_op_not => diagNullExpr "unary operator !" | _ => diagNullExpr "unary operator -" end end) in
         let! r := toLast c in let! i := fresh in ok_ (NUnary i r (NOp io (trange t1) k) e)) s
         (fun prefix s' => fw (match prefix with None => ret None | Some p => run src f (QOpLoop bp p) end) s' Q)).
    { apply fw_bind. eapply fw_consume; [exact A|]. clear s A. intros s A. apply fw_bind. eapply fw_assertLast; [exact A|]. apply fw_bind.
      eapply fw_fresh; [exact A|]. clear s A. intros io s A. apply fw_bind. eapply call_some; [apply IH; lia| |exact A|].
      - apply (sp_op _ _ _ t); auto.
        + eapply Forall_impl; [|exact H4]. intros o [N M]. now apply nests_enters_un.
      - clear s A. intros n s N A. apply fw_bind. apply fw_ret. apply fw_bind. eapply fw_toLast; [exact A|]. intros r. apply fw_bind.
        eapply fw_fresh; [exact A|]. clear s A. intros i s A. apply fw_ret. apply H; auto. now constructor. }
    match goal with H : In k _ |- _ => cbn in H; destruct H as [<-|[<-|[]]]; exact X end.
  - (* binary *) cbn [toks app l_ops r_ops] in *. rewrite <- !app_assoc in A. cbn [app] in A. apply Fo in K. destruct K as [K1 K2]. inversion E; subst.
    destruct (binop_facts _ H3) as (B1 & B2 & B3 & B4).
    eapply IHt1; [assumption|assumption| |exact A|].
    + unfold tok_of. cbn [hd_ok]. unfold fOp. rewrite B2. cbn. apply forallb_forall. intros o Io. rewrite Forall_forall in H6. destruct (H6 o Io). now apply closes_halts.
    + clear s A. intros g n s G N A. destruct g as [|g]; [exact I|]. cbn [run step]. unfold parseExprOpLoop. apply fw_bind.
      eapply fw_peek; [exact A|reflexivity|]. clear s A. intros t s T V A. rewrite T, B1, B3. cbn [enters] in H2.
      replace (Nat.ltb (lbp k) bp) with false by (symmetry; apply Nat.ltb_ge; lia). replace (Nat.eqb bp (lbp k)) with false by (symmetry; apply Nat.eqb_neq; lia).
      apply fw_bind. apply fw_ret. apply fw_bind. eapply fw_consume; [exact A|]. clear s A. intros s A. apply fw_bind. eapply fw_assertLast; [exact A|]. apply fw_bind.
      eapply fw_fresh; [exact A|]. clear s A. intros io s A. apply fw_bind. eapply call_some; [apply IH; lia| |exact A|].
      * apply (sp_op _ _ _ t2); auto.
        eapply Forall_impl; [|exact H7]. intros o [N1 M]. now apply nests_enters.
      * clear s A. intros m s N2 A. apply fw_bind. eapply fw_fresh; [exact A|]. clear s A. intros i s A. apply H; [lia| |exact A]. now constructor.
  - (* ? *) cbn [toks app l_ops r_ops] in *. rewrite <- !app_assoc in A. cbn [app] in A. inversion E; subst.
    eapply IHt; [assumption|assumption| |exact A|].
    + unfold tok_of. cbn [hd_ok]. unfold fOp. cbn. apply forallb_forall. intros o Io. rewrite Forall_forall in H4. destruct (H4 o Io). now apply closes_has.
    + clear s A. intros g n s G N A. destruct g as [|g]; [exact I|]. cbn [run step]. unfold parseExprOpLoop. apply fw_bind.
      eapply fw_peek; [exact A|reflexivity|]. clear s A. intros t1 s T V A. rewrite T. cbn [isBinOp].
      apply fw_bind. eapply fw_consume; [exact A|]. clear s A. intros s A. apply fw_bind. eapply fw_assertLast; [exact A|]. apply fw_bind.
      eapply fw_fresh; [exact A|]. clear s A. intros io s A. apply fw_bind. eapply call_some; [apply IH; lia| |exact A|].
      * apply (sp_path _ _ p); auto. eapply hd_weaken; [exact (Fa _ _ K)|]. intros k0 K0. destruct k0; try discriminate; reflexivity.
      * clear s A. intros m s N2 A. apply fw_bind. eapply fw_toLast; [exact A|]. intros r. apply fw_bind. eapply fw_fresh; [exact A|]. clear s A. intros i s A.
        apply H; [lia| |exact A]. now constructor.
Qed.
Lemma f_op f p y bp t rest s : (forall g, g < f -> keeps (run src g)) -> wf LOp t -> Forall (enters bp) (l_ops t) -> hd_ok (fOp (r_ops t)) rest -> hd_ok (ends bp) rest ->
  At p y s (toks t ++ rest) -> fw (run src f (QOp bp)) s (post (some_ (is_tree t) rest) p y).
Proof.
  intros IH W E K1 K2 A. eapply op_cps; [exact IH|exact W|exact E|exact K1|exact A|]. clear s A. intros g n s G N A.
  destruct g as [|g]; [exact I|]. cbn [run step]. unfold parseExprOpLoop. apply fw_bind. destruct rest as [|[k v] rest]; [contradiction|].
  cbn [hd_ok] in K1, K2. unfold fOp in K1. apply andb_prop in K1. destruct K1 as [K1 _]. unfold ends in K2.
  eapply fw_peek; [exact A|reflexivity|]. clear s A. intros t1 s T V A. rewrite T.
  assert (D : post (some_ (is_tree t) ((k, v) :: rest)) p y (Some n) s) by (apply done; auto).
  destruct (isBinOp k) eqn:B.
  - assert (G' : exists r, getBP k = Some (lbp k, r)) by (unfold lbp; destruct k; try discriminate B; now eexists).
    destruct G' as (r & ->). rewrite K2. exact D.
  - destruct k; try discriminate; exact D.
Qed.

Lemma keeps_all f : keeps (run src f).
Proof.
  induction f as [f IHf] using (well_founded_induction lt_wf). destruct f as [|f].
  - intros q p y l R _ s _. exact I.
  - assert (IH : keeps (run src f)) by (apply IHf; lia).
    intros q p y l R H s A.
    destruct H; try (eapply f_op; eauto; fail); cbn [run step].
    + eapply f_expr; eauto.
    + eapply f_app; eauto.
    + eapply f_apploop; eauto.
    + eapply f_sel; eauto.
    + eapply f_sel_none; eauto.
    + eapply f_simple; eauto.
    + eapply f_simple_none; eauto.
    + eapply f_paren; eauto.
    + eapply f_list; eauto.
    + eapply f_listloop; eauto.
    + eapply f_name; eauto.
    + eapply f_name_none; eauto.
    + eapply f_path; eauto.
    + eapply f_path_none; eauto.
    + eapply f_pathloop; eauto.
    + eapply f_binding; eauto.
    + eapply f_binding_none; eauto.
    + eapply f_inherit; eauto.
    + eapply f_inherit_none; eauto.
    + eapply f_inheritloop; eauto.
    + eapply f_binds; eauto.
    + eapply f_bindsloop; eauto.
    + eapply f_attrs; eauto.
    + eapply f_if; eauto.
    + eapply f_assert; eauto.
    + eapply f_with; eauto.
    + eapply f_let; eauto.
    + eapply f_formal; eauto.
    + eapply f_formal_ell; eauto.
    + eapply f_formals; eauto.
    + eapply f_formalsloop; eauto.
    + eapply f_formalsloop_end; eauto.
    + eapply f_arg_id; eauto.
    + eapply f_arg_set; eauto.
    + eapply f_lam; eauto.
    + eapply f_lamset; eauto.
Qed.
End Run.
