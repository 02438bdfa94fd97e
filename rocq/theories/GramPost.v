(** For C68: the contracts of the parsing functions, and tactics. *)
From Verif Require Import Base Diag LexModel LexSpec LexProofs AstModel PSupModel SemaModel ParseModel ParseSpec
  ParseInv GramSpec GramBase GramMono GramStep.

Section Post.
Context {Qt : Quiet}.
Variable src : bytes.
Notation J := (J src). Notation fl := (fl src).
(** what is said about where the text of a node is *)
Definition located (n : node) (its : list item) : Prop := silent = true -> spans src n its.
Notation G := (gram_at false located).

Definition pre (q : nt) (c : core_) : Prop :=
  J c /\
  match q with
  | QParts _ _ => cmode c <> PS_Expr /\ tight c
  | QPathLoop _ acc => cmode c = PS_Path /\ cbuf c = [] /\ (acc = [] /\ path_start (crest c) \/ acc <> [] /\ tight c)
  | QInterp => True
  | _ => cmode c = PS_Expr
  end.

Definition got (c c' : core_) (X : sym) : Prop := exists its, fl c its c' /\ G X its.
Definition got1 (c c' : core_) (X : sym) (n : node) : Prop := exists its, fl c its c' /\ G X its /\ located n its.
Definition operand (bp : nat) (n : node) (c' : core_) : Prop :=
  Forall (above bp) (left_edge n) /\
  exists t bf, cbuf c' = t :: bf /\ Forall (okb (tk t)) (right_edge n) /\ stops bp (tk t).

(** without the position *)
Definition post0 (q : nt) (c : core_) (r : option node) (c' : core_) : Prop :=
  match q, r with
  | (QExpr | QIf | QAssert | QLet | QLegacyLet | QWith | QLambda), Some n => got c c' (Expr n)
  | QOp bp, Some n => got c c' (Op n) /\ operand bp n c'
  | QOpLoop bp p, Some n =>
      forall i0, G (Op p) i0 -> Forall (above bp) (left_edge p) ->
        (forall k, Forall (okb k) (right_edge p)) \/
        (exists t bf, cbuf c = t :: bf /\ Forall (okb (tk t)) (right_edge p)) ->
        (exists its, fl c its c' /\ G (Op n) (i0 ++ its)) /\ operand bp n c'
  | QApp, Some n => got c c' (App n)
  | QAppLoop f args, Some n =>
      forall i1 i2, G (Sel f) i1 -> located f i1 -> G (Sels args) i2 -> exists its, fl c its c' /\ G (App n) (i1 ++ i2 ++ its)
  | QSelect, Some n => got c c' (Sel n)
  | (QSimple | QParen | QList | QPath | QAttrs), Some n => got c c' (Simple n)
  | QListLoop _ acc, Some n =>
      forall i0 v1, G (Sels acc) i0 -> exists its, fl c its c' /\ G (Simple n) ([E tok_l_bracket v1] ++ i0 ++ its)
  | QString ind, Some n => got c c' (Str ind n)
  | QParts _ acc, Some n =>
      forall i0, G (Parts (cmode c) (flatten acc)) i0 ->
        exists i r fs its, n = NParts i r fs /\ fl c its c' /\ G (Parts (cmode c) (flatten fs)) (i0 ++ its) /\ tight c'
  | QPathLoop _ acc, Some n =>
      forall i0, (acc = [] /\ i0 = []) \/ (acc <> [] /\ G (Frags false (flatten acc)) i0) ->
        exists i r ip fs its, n = NPath i r (NParts ip r fs) /\ fl c its c' /\ its <> [] /\ G (Frags true (flatten fs)) (i0 ++ its)
  | QInterp, Some n =>
      forall g, (g = true -> tight c /\ cmode c <> PS_Expr) -> got c c' (Interp g (cmode c) n) /\ cbuf c' = [] /\ tight c'
  | QAttrName, Some n => got c c' (Name n)
  | QAttrPath, Some n => exists i r ns ds, n = NAttrPath i r ns ds /\ got c c' (AttrPath ns)
  | QAttrPathLoop _ names _ _, Some n =>
      forall i0, G (AttrPath names) i0 ->
        exists i r ns ds its, n = NAttrPath i r ns ds /\ fl c its c' /\ G (AttrPath ns) (i0 ++ its)
  | (QBinding | QInherit), Some n => got c c' (Bind n)
  | QInheritLoop _ e names, Some n =>
      forall i0, G (Names names) i0 ->
        exists i r ns its i1 v, n = NInherit i r ns e /\ fl c its c' /\ i0 ++ its = i1 ++ [E tok_semi_colon v] /\
          G (Names ns) i1
  | QBinds, _ => got c c' (BindsO r)
  | QBindsLoop _ acc, _ =>
      forall i0, G (Binds acc) i0 -> exists its, fl c its c' /\ G (BindsO r) (i0 ++ its)
  | QFormal, Some n => exists its, fl c its c' /\ rawf (at_ := located) n its
  | QFormals, Some n => got c c' (FormalSet n)
  | QFormalsLoop _ acc, Some n =>
      forall i0, raws (at_ := located) acc i0 ->
        exists its, fl c its c' /\ forall v1, G (FormalSet n) ([E tok_l_curly v1] ++ i0 ++ its)
  | QLambdaArg, Some n => got c c' (Arg n)
  | (QSelect | QSimple | QList | QAttrName | QAttrPath | QBinding | QInherit | QFormal), None => fl c [] c'
  | (QExpr | QIf | QAssert | QLet | QLegacyLet | QWith | QLambda | QOp _ | QOpLoop _ _ | QApp | QFormals | QLambdaArg),
      None => True
  | _, None => False
  end.
Definition post (q : nt) (c : core_) (r : option node) (c' : core_) : Prop :=
  match q, r with
  | QExpr, Some n => got1 c c' (Expr n) n
  | QSelect, Some n => got1 c c' (Sel n) n
  | QSimple, Some n => got1 c c' (Simple n) n
  | QAttrName, Some n => got1 c c' (Name n) n
  | QAttrPath, Some n => exists i r ns ds, n = NAttrPath i r ns ds /\ got1 c c' (AttrPath ns) n
  | (QBinding | QInherit), Some n => got1 c c' (Bind n) n
  | _, _ => post0 q c r c'
  end.
End Post.

(** tactics *)
Ltac M3 := solve [repeat (M1 || match goal with H : forall q, mono (_ q) |- _ => apply H end)].
Ltac kbeq :=
  repeat match goal with
  | H : tkind_beq _ _ = true |- _ => apply tkind_beq_eq in H
  end.
(** rewrite the kinds of the items read *)
Ltac kinds :=
  repeat match goal with
  | K : tk ?t = _, F : context [E (tk ?t) _] |- _ => rewrite K in F
  end.
Ltac C :=
  match goal with
  | |- cl (pbind _ _) _ _ => apply cl_bind; [M3|intros; M3|]
  | |- cl (let _ := _ in _) _ _ => cbv zeta
  | |- cl (ret _) _ _ => apply cl_ret
  | |- cl (ok_ _) _ _ => apply cl_ret
  | |- cl (crash _) _ _ => apply cl_crash
  | |- cl (lift _) _ _ => apply cl_lift; intros
  | |- cl (passert _ _) _ _ => apply cl_passert; intros
  | |- cl fresh _ _ => apply cl_fresh; intros ?
  | |- cl (emit _) _ _ => apply cl_emit; let H := fresh in intros H; try discriminate H; clear H
  | |- cl (fix1 _ _) _ _ => apply cl_fix1; intros ?
  | |- cl (addFix _ _) _ _ => apply cl_addFix
  | |- cl (upd_last _) _ _ => apply cl_upd
  | |- cl (noteMatch _ _) _ _ => apply cl_noteMatch
  | |- cl (diagNullExpr _) _ _ => apply cl_diagNull
  | |- cl (orNull _ _) _ _ => apply cl_orNull; intros ? ->
  | |- cl (withSync _ _) _ _ => apply cl_withSync
  | |- cl assertLast _ _ => apply cl_assertLast
  | |- cl (toLast _) _ _ => apply cl_toLast; intros ?
  | |- cl lastR _ _ => apply cl_lastR; intros ? _
  | |- cl (mkMisc _) _ _ => apply cl_mkMisc; intros ?
  | |- cl (onExprAttrs _ _ _) _ _ => apply cl_onExprAttrs; intros
  | |- cl (onLambdaArg _ _ _) _ _ => apply cl_onLambdaArg; intros
  | H : cbuf ?c = _ :: _ |- cl (peek 0) ?c _ => eapply r_peek_known; [exact H|]
  | H : cbuf ?c = _ :: _ |- cl (peekk 0) ?c _ => eapply r_peekk_known; [exact H|]
  | F : fl _ _ _ ?c |- cl (peek 0) ?c _ =>
      eapply r_peek; [exact F|]; let t := fresh "t" in let c' := fresh "c" in let F' := fresh "F" in let E' := fresh "Eb" in
      intros t c' ? F' E' _; clear F
  | F : fl _ _ _ ?c |- cl (peekk 0) ?c _ =>
      eapply r_peekk; [exact F|]; let t := fresh "t" in let c' := fresh "c" in let F' := fresh "F" in let E' := fresh "Eb" in
      intros t c' ? F' E' _; clear F
  | F : fl _ _ _ ?c |- cl lCur ?c _ =>
      eapply r_lCur; [exact F|]; let t := fresh "t" in let c' := fresh "c" in let F' := fresh "F" in let E' := fresh "Eb" in
      intros t c' ? F' E' _; clear F
  | F : fl _ _ _ ?c |- cl (expect _ _) ?c _ =>
      eapply r_expect; [exact F|]; let t := fresh "t" in let c' := fresh "c" in let F' := fresh "F" in let E' := fresh "Eb" in
      let K := fresh "K" in intros t c' ? F' E' K _; clear F
  | F : fl _ _ _ ?c |- cl (removeUnexpected _) ?c _ =>
      eapply r_remove; [exact F|]; let t := fresh "t" in let c' := fresh "c" in let F' := fresh "F" in let E' := fresh "Eb" in
      intros t c' ? F' E'; clear F
  | F : fl _ _ _ ?c, Hm : cmode _ = PS_Expr, Eb : cbuf ?c = _ :: _ |- cl consume ?c _ =>
      eapply r_consume; [exact F|exact Hm|exact Eb|]; clear F Eb;
      let F' := fresh "F" in let T' := fresh "T" in intros F' T'; kinds
  | |- cl (if tkind_beq ?a ?c then _ else _) _ _ =>
      let K := fresh "K" in destruct (tkind_beq a c) eqn:K; [apply tkind_beq_eq in K|]
  | |- cl (if negb (tkind_beq ?a ?c) then _ else _) _ _ =>
      let K := fresh "K" in destruct (tkind_beq a c) eqn:K; [apply tkind_beq_eq in K|]; cbn [negb]
  end.
Ltac nap F := repeat rewrite <- app_assoc in F; cbn [app] in F.
(** a recursive call; the precondition is left only when it is not the usual one *)
Ltac usual := lazymatch goal with
  | F : fl _ _ _ ?c, Hm : cmode _ = PS_Expr |- pre _ _ ?c =>
      split; [exact (fl_J _ _ _ _ F)|]; exact (eq_trans (fl_mode _ _ _ _ F) Hm)
  end.
Ltac R Rec := eapply cl_mono; [apply Rec; try usual|].
(** the end: [fin rule] *)
Ltac asc := repeat rewrite <- app_assoc; cbn [app]; reflexivity.
Tactic Notation "fin" uconstr(rule) :=
  lazymatch goal with
  | F : fl _ ?c _ ?c' |- got _ ?c ?c' _ => eexists; split; [exact F|]
  | F : fl _ ?c _ ?c' |- exists _, fl _ ?c _ ?c' /\ _ => eexists; split; [exact F|]
  end; eapply eq_gram; [eapply rule; eauto using g_op, g_app, g_sel, g_simple|asc].
Ltac mg F2 :=
  lazymatch type of F2 with
  | fl _ ?c1 _ _ =>
      lazymatch goal with
      | F : fl _ _ _ c1 |- _ =>
          let F3 := fresh "F" in pose proof (fl_trans _ _ _ _ _ _ F F2) as F3; clear F F2
      end
  end.
Ltac flx := lazymatch goal with F : fl _ ?c _ ?c' |- fl _ ?c _ ?c' => exact F end.
Ltac ext := lazymatch goal with
  | F : fl _ ?c _ ?c' |- got _ ?c ?c' _ => eexists; split; [exact F|]
  | F : fl _ ?c _ ?c' |- exists _, fl _ ?c _ ?c' /\ _ => eexists; split; [exact F|]
  end.
(** a call that yields an expression, or nothing and then the caller complains *)
Ltac start := let c := fresh "c" in intros c [HJ Hm]; cbn in Hm;
  match type of HJ with GramBase.J ?src _ => assert (F : fl src c [] c) by (apply fl_refl; exact HJ) end.
