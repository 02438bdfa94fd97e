(** Each parsing function keeps its part of [spec], if those it calls do. *)
From Verif Require Import Base Diag LexModel AstModel PSupModel SemaModel ParseModel LexSpec GramSpec GramFun1 AccSpec AccBase AccSema AccStep.
From Coq Require Import Lia.
Local Notation kvs := (list (tkind * bytes)).

Section Fun.
Variables (src : bytes) (rec : nt -> P (option node)).
Hypothesis IH : keeps rec.

Lemma call_some q p y l R rest s (Q : option node -> pst -> Prop) : spec q p y l (some_ R rest) -> At p y s l ->
  (forall n s', R n -> At true y s' rest -> Q (Some n) s') -> fw (rec q) s Q.
Proof.
  intros H A K. eapply fw_mono; [exact (IH _ _ _ _ _ H s A)|]. intros o s' (l' & [-> (n & -> & Hn)] & A'). apply K; auto.
Qed.
Lemma call_none q p y l s (Q : option node -> pst -> Prop) : spec q p y l (none_ l) -> At p y s l ->
  (forall s', At p y s' l -> Q None s') -> fw (rec q) s Q.
Proof. intros H A K. eapply fw_mono; [exact (IH _ _ _ _ _ H s A)|]. intros o s' (l' & [-> ->] & A'). apply K; auto. Qed.
Lemma fw_sync {A} k (m : P A) p y s l (Q : A -> pst -> Prop) : At p y s l ->
  (forall s', At p (k :: y) s' l -> fw m s' (fun a s2 => exists p2 l2, At p2 (k :: y) s2 l2 /\ forall s3, At p2 y s3 l2 -> Q a s3)) ->
  fw (withSync k m) s Q.
Proof.
  intros A0 H. eapply fw_withSync; [exact A0|]. intros s' A'. eapply fw_mono; [exact (H s' A')|]. intros a s2 (p2 & l2 & A2 & K).
  split; [apply A2|]. intros s3 Z. apply K. apply Z. exact A2.
Qed.
Lemma done (R : node -> Prop) n rest p y s' : At true y s' rest -> R n -> post (some_ R rest) p y (Some n) s'.
Proof. intros A H. exists rest. split; [|exact A]. split; eauto. Qed.

Lemma done_none l p y s' : At p y s' l -> post (none_ l) p y None s'.
Proof. intros A. exists l. split; [|exact A]. split; auto. Qed.

Ltac norm := cbn [toks btoks path_toks flat_map map optlist_ app arg_toks ftok fst snd] in *; repeat match goal with H : At _ _ _ _ |- _ => progress (rewrite <- ?app_assoc in H; cbn [app] in H) end.
(** one step *)
Ltac st :=
  lazymatch goal with
  | |- fw (pbind _ _) _ _ => apply fw_bind
  | |- fw (ret _) _ _ => apply fw_ret
  | |- fw (ok_ _) _ _ => apply fw_ret
  | A : At _ _ ?s _ |- fw (peek _) ?s _ =>
      eapply fw_peek; [exact A|reflexivity|]; clear dependent s;
      let t := fresh "t" in let s' := fresh "s" in let T := fresh "T" in let V := fresh "V" in let A' := fresh "A" in
      intros t s' T V A'; rewrite ?T; cbn [tkind_beq negb]
  | A : At _ _ ?s _ |- fw (peekk _) ?s _ =>
      eapply fw_peekk; [exact A|reflexivity|]; clear dependent s;
      let s' := fresh "s" in let A' := fresh "A" in intros s' A'; cbn [tkind_beq negb]
  | A : At _ _ ?s _ |- fw lCur ?s _ => eapply fw_lCur; [exact A|]; clear dependent s; let s' := fresh "s" in let c := fresh "c" in let A' := fresh "A" in intros c s' A'
  | A : At _ _ ?s _ |- fw PSupModel.consume ?s _ => eapply fw_consume; [exact A|]; clear dependent s; let s' := fresh "s" in let A' := fresh "A" in intros s' A'
  | A : At _ _ ?s _ |- fw assertLast ?s _ => eapply fw_assertLast; [exact A|]
  | A : At _ _ ?s _ |- fw lastR ?s _ => eapply fw_lastR; [exact A|]; intros ?
  | A : At _ _ ?s _ |- fw (toLast _) ?s _ => eapply fw_toLast; [exact A|]; let r := fresh "r" in intros r
  | A : At _ _ ?s _ |- fw fresh ?s _ => eapply fw_fresh; [exact A|]; clear dependent s; let s' := fresh "s" in let i := fresh "i" in let A' := fresh "A" in intros i s' A'
  | A : At _ _ ?s _ |- fw (mkMisc _) ?s _ => eapply fw_mkMisc; [exact A|]; clear dependent s; let s' := fresh "s" in let i := fresh "m" in let A' := fresh "A" in intros i s' A'
  | |- fw (passert _ _) _ _ => apply fw_passert; [reflexivity|]
  | A : At _ _ ?s _ |- fw (expect _ _) ?s _ =>
      eapply fw_expect; [exact A|]; clear dependent s;
      let t := fresh "t" in let s' := fresh "s" in let T := fresh "T" in let V := fresh "V" in let A' := fresh "A" in intros t s' T V A'
  | A : At _ _ ?s _ |- fw (withSync _ _) ?s _ => eapply fw_sync; [exact A|]; clear dependent s; let s' := fresh "s" in let A' := fresh "A" in intros s' A'
  | |- fw (orNull (Some _) _) _ _ => apply fw_ret
  | |- exists p2 l2, At p2 _ ?s l2 /\ _ => eexists true, _; split; [eassumption|]; clear dependent s; let s' := fresh "s" in let A' := fresh "A" in intros s' A'
  end; cbv beta iota zeta.
Ltac some_call := match goal with A : At _ _ ?s _ |- fw (rec _) ?s _ =>
  eapply call_some; [|exact A|clear dependent s; let n := fresh "n" in let s' := fresh "s" in let N := fresh "N" in let A' := fresh "A" in intros n s' N A'; cbv beta iota zeta] end.
Ltac none_call := match goal with A : At _ _ ?s _ |- fw (rec _) ?s _ =>
  eapply call_none; [|exact A|clear dependent s; let s' := fresh "s" in let A' := fresh "A" in intros s' A'; cbv beta iota zeta] end.

Lemma plain_simple e n : is_tree e n -> ~ plain e -> mayProducedBySimple (Some n) = false.
Proof. intros T N. inversion T; subst; cbn in *; tauto. Qed.

Ltac sts := cbn [negb]; cbv beta iota zeta; repeat st.
Lemma f_paren p y e rest s : wf LExpr e -> ~ plain e -> At p y s (toks (Paren e) ++ rest) ->
  fw (parseExprParen src rec) s (post (some_ (is_tree (Paren e)) rest) p y).
Proof.
  intros W N A. norm. unfold parseExprParen. sts. some_call; [apply sp_expr; auto; reflexivity|].
  sts. rewrite (plain_simple _ _ N0 N). sts. apply done; auto. now constructor.
Qed.

(** * The first token *)
Lemma hd_weaken (f g : tkind -> bool) l : hd_ok f l -> (forall k, f k = true -> g k = true) -> hd_ok g l.
Proof. destruct l as [|[k v] l]; cbn; auto. Qed.
Lemma hd_app f l l' : hd_ok f l -> hd_ok f (l ++ l').
Proof. destruct l as [|[k v] l]; cbn; [tauto|auto]. Qed.
Lemma simple_head t : wf LSimple t -> hd_ok simple_start (toks t).
Proof. intros H. inversion H; subst; try reflexivity. destruct r; reflexivity. Qed.
Lemma sel_head t : wf LSel t -> hd_ok simple_start (toks t).
Proof. intros H. inversion H; subst; [now apply simple_head|]. cbn [toks]. apply hd_app. now apply simple_head. Qed.
Lemma app_head t : wf LApp t -> hd_ok simple_start (toks t).
Proof. intros H. inversion H; subst; [now apply sel_head|]. cbn [toks]. apply hd_app. now apply sel_head. Qed.
Lemma sels_head f ts rest : Forall (wf LSel) ts -> hd_ok f rest -> (forall k, simple_start k = true -> f k = true) -> hd_ok f (flat_map toks ts ++ rest).
Proof.
  intros W H K. destruct W as [|t ts W1 W2]; cbn; auto. rewrite <- app_assoc. apply hd_app. eapply hd_weaken; [now apply sel_head|exact K].
Qed.
Lemma fw_peekk_hd f p y s l (Q : tkind -> pst -> Prop) : At p y s l -> hd_ok f l ->
  (forall k s', f k = true -> At p y s' l -> Q k s') -> fw (peekk 0) s Q.
Proof. intros A H K. destruct l as [|[k v] l]; [contradiction|]. eapply fw_peekk; [exact A|reflexivity|]. intros s' A'. apply K; auto. Qed.
Lemma fw_peek_hd f p y s l (Q : token -> pst -> Prop) : At p y s l -> hd_ok f l ->
  (forall t s', f (tk t) = true -> At p y s' l -> Q t s') -> fw (peek 0) s Q.
Proof. intros A H K. destruct l as [|[k v] l]; [contradiction|]. eapply fw_peek; [exact A|reflexivity|]. intros t s' T V A'. apply K; auto. now rewrite T. Qed.

Ltac peek_hd := match goal with A : At _ _ ?s _ |- fw (peekk 0) ?s _ => eapply fw_peekk_hd; [exact A| |clear dependent s; let k := fresh "k" in let s' := fresh "s" in let K := fresh "K" in let A' := fresh "A" in intros k s' K A'; cbv beta iota zeta]
  | A : At _ _ ?s _ |- fw (peek 0) ?s _ => eapply fw_peek_hd; [exact A| |clear dependent s; let k := fresh "t" in let s' := fresh "s" in let K := fresh "K" in let A' := fresh "A" in intros k s' K A'; cbv beta iota zeta] end.
Ltac kinds k := destruct k; try discriminate; try reflexivity.

Lemma f_listloop p y tok acc es rest s : Forall (wf LSel) es -> At p y s (flat_map toks es ++ tok_of tok_r_bracket :: rest) ->
  fw (parseExprListLoop src rec tok acc) s
    (post (some_ (fun n => exists ns i r, Forall2 is_tree es ns /\ n = NList i r (acc ++ ns)) rest) p y).
Proof.
  intros W A. unfold parseExprListLoop. destruct es as [|e es]; norm.
  - sts. apply done; auto. exists [], i, r. rewrite app_nil_r. auto.
  - inversion W; subst. apply fw_bind. peek_hd; [apply hd_app, sel_head; assumption|].
    replace (tkind_beq k tok_r_bracket) with false by (kinds k). st. some_call.
    { apply sp_sel; auto. apply sels_head; auto; [reflexivity|]. intros k' K'. kinds k'. }
    some_call; [apply sp_listloop; auto|]. destruct N0 as (ns & i & r & F & ->). apply done; auto. exists (n :: ns), i, r. split; [auto|]. now rewrite <- app_assoc.
Qed.
Lemma f_list p y es rest s : Forall (wf LSel) es -> At p y s (toks (Seq es) ++ rest) -> fw (parseExprList rec) s (post (some_ (is_tree (Seq es)) rest) p y).
Proof.
  intros W A. norm. unfold parseExprList. sts. some_call; [apply sp_listloop; auto|]. sts. apply done; auto.
  destruct N as (ns & i & r & F & ->). now constructor.
Qed.
Lemma f_apploop y fn acc ts rest s : Forall (wf LSel) ts -> hd_ok fApp rest -> At true y s (flat_map toks ts ++ rest) ->
  fw (parseExprAppLoop rec fn acc) s
     (post (some_ (fun n => exists ns, Forall2 is_tree ts ns /\ match acc ++ ns with [] => n = fn | l => exists i r, n = NCall i r fn l end) rest) true y).
Proof.
  intros W K A. unfold parseExprAppLoop. destruct ts as [|t ts]; norm; apply fw_bind.
  - none_call; [apply sp_sel_none; eapply hd_weaken; [exact K|]; intros k Hk; kinds k|].
    destruct acc as [|a acc]; sts; apply done; auto; exists []; split; auto. all: rewrite app_nil_r; cbv iota; eauto.
  - inversion W; subst. some_call.
    { apply sp_sel; auto. apply sels_head; auto; [eapply hd_weaken; [exact K|]|]; intros k Hk; kinds k. }
    some_call; [apply sp_apploop; auto|]. destruct N0 as (ns & F & X). apply done; auto. exists (n :: ns). split; [auto|]. rewrite <- app_assoc in X. exact X.
Qed.
Lemma maybeLambda_call t n : is_tree t n -> wf LSel t -> (maybeLambda n = false <-> ~ callable t).
Proof. intros T W. inversion T; subst; cbn; try (split; [discriminate|tauto]); try tauto; inversion W; subst; inversion H; subst; inversion H1. Qed.
Lemma f_app p y t rest s : wf LApp t -> hd_ok fApp rest -> At p y s (toks t ++ rest) -> fw (parseExprApp rec) s (post (some_ (is_tree t) rest) p y).
Proof.
  intros W K A. unfold parseExprApp. apply fw_bind. inversion W as [| | | | | | | | |? W1|f args W1 C Ha W2| | | | | | | | | | | ]; subst.
  - some_call; [apply sp_sel; auto; eapply hd_weaken; [exact K|]; intros k Hk; kinds k|].
    destruct (maybeLambda n).
    + some_call; [apply (sp_apploop _ n [] [] rest); auto; constructor|]. destruct N0 as (ns & F & X). inversion F; subst. cbn in X. subst. apply done; auto.
    + sts. apply done; auto.
  - norm. some_call; [apply sp_sel; auto; apply sels_head; auto; [eapply hd_weaken; [exact K|]|]; intros k Hk; kinds k|].
    destruct (maybeLambda n) eqn:E; [|apply (maybeLambda_call _ _ N W1) in E; contradiction].
    some_call; [apply (sp_apploop _ n [] args rest); auto|]. destruct N0 as (ns & F & X). apply done; auto. destruct ns as [|n1 ns]; [inversion F; subst; contradiction|].
    cbn [app] in X. destruct X as (i & r & ->). now constructor.
Qed.

Lemma fw_lift_ok {A} (a : A) s (Q : A -> pst -> Prop) : Q a s -> fw (lift (Ok a)) s Q.
Proof. exact (fun H => H). Qed.
Lemma f_sel p y t rest s : wf LSel t -> hd_ok fSel rest -> At p y s (toks t ++ rest) -> fw (parseExprSelect rec) s (post (some_ (is_tree t) rest) p y).
Proof.
  intros W K A. unfold parseExprSelect. apply fw_bind. inversion W as [| | | | | | |? W1|e p_ d W1 Hp Hd| | | | | | | | | | | | | ]; subst.
  - some_call; [apply sp_simple; auto|]. sts. peek_hd; [exact K|]. replace (tkind_beq (tk t0) tok_dot) with false by (destruct (tk t0); try discriminate; reflexivity).
    sts. apply done; auto.
  - norm. some_call; [apply sp_simple; auto|]. sts.
    assert (X : hd_ok (not_k tok_dot) (match d with Some d => tok_of tok_kw_or :: toks d | None => [] end ++ rest)).
    { destruct d; [reflexivity|]. eapply hd_weaken; [exact K|]. intros k Hk. kinds k. }
    some_call; [apply sp_path; auto|]. sts. destruct d as [d|]; norm.
    + sts. some_call; [apply sp_sel; auto|]. sts. apply done; auto. constructor; auto. now constructor.
    + peek_hd; [exact K|]. replace (tkind_beq (tk t0) tok_kw_or) with false by (destruct (tk t0); try discriminate; reflexivity).
      sts. apply done; auto. constructor; auto. constructor.
Qed.
Lemma f_sel_none p y l s : hd_ok (fun k => negb (simple_start k)) l -> At p y s l -> fw (parseExprSelect rec) s (post (none_ l) p y).
Proof. intros K A. unfold parseExprSelect. apply fw_bind. none_call; [apply sp_simple_none; auto|]. sts. now apply done_none. Qed.
Lemma digits_code d c : nth_error digits d = Some c -> (code c - 48)%N = N.of_nat d.
Proof.
  intros H. do 10 (destruct d as [|d]; [injection H as <-; reflexivity|]). cbn in H. destruct d; discriminate.
Qed.
Lemma numeral_dec_N v n : numeral v n -> dec_N v = n.
Proof.
  induction 1 as [|v n c d H IHn E]; [reflexivity|]. unfold dec_N in *. rewrite fold_left_app. cbn [fold_left]. rewrite IHn, (digits_code _ _ E). lia.
Qed.
Lemma f_simple p y t rest s : wf LSimple t -> At p y s (toks t ++ rest) -> fw (parseExprSimple rec) s (post (some_ (is_tree t) rest) p y).
Proof.
  intros W A. unfold parseExprSimple. inversion W as [x|v n Hn Hb|v|u|e W1 Np|es W1|r bs W1 D| | | | | | | | | | | | | | | ]; subst.
  - norm. sts. apply done; auto. constructor. subst. do 2 eexists. unfold name_tok in *. reflexivity.
  - norm. sts. unfold from_chars. rewrite V, (numeral_dec_N _ _ Hn). rewrite (proj2 (N.ltb_lt _ _) Hb). sts. apply done; auto. now constructor.
  - norm. sts. apply done; auto. constructor.
  - norm. sts. apply done; auto. rewrite V.
    replace (firstn _ _) with u; [constructor|]. cbn [b list_ascii_of_string app List.length Nat.sub skipn]. rewrite app_length. cbn [List.length].
    replace (List.length u + 1 - 1) with (List.length u) by lia. rewrite firstn_app, Nat.sub_diag, firstn_O, app_nil_r. symmetry. apply firstn_all.
  - apply fw_bind. eapply (fw_peek 0); [exact A|reflexivity|]. clear dependent s. intros t s T V A. rewrite T. some_call; [apply sp_paren; auto|]. now apply done.
  - apply fw_bind. eapply (fw_peek 0); [exact A|reflexivity|]. clear dependent s. intros t s T V A. rewrite T. some_call; [apply sp_list; auto|]. now apply done.
  - apply fw_bind. destruct r; (eapply (fw_peek 0); [exact A|reflexivity|]; clear dependent s; intros t s T V A; rewrite T; some_call; [apply sp_attrs; auto|]; now apply done).
Qed.
Lemma f_simple_none p y l s : hd_ok (fun k => negb (simple_start k)) l -> At p y s l -> fw (parseExprSimple rec) s (post (none_ l) p y).
Proof. intros K A. unfold parseExprSimple. apply fw_bind. peek_hd; [exact K|]. destruct (tk t); try discriminate; sts; now apply done_none. Qed.

Lemma f_name p y x rest s : At p y s (name_tok x :: rest) -> fw (parseAttrName rec) s (post (some_ (is_name x) rest) p y).
Proof. intros A. unfold parseAttrName. sts. apply done; auto. subst. do 4 eexists. reflexivity. Qed.
Lemma f_name_none p y l s : hd_ok (fun k => negb (name_start k)) l -> At p y s l -> fw (parseAttrName rec) s (post (none_ l) p y).
Proof. intros K A. unfold parseAttrName. apply fw_bind. peek_hd; [exact K|]. destruct (tk t); try discriminate; sts; now apply done_none. Qed.
Lemma path_loop_toks x p_ : path_toks (x :: p_) = name_tok x :: flat_map (fun x => [tok_of tok_dot; name_tok x]) p_.
Proof. revert x. induction p_ as [|z p_ IHp]; intros x; [reflexivity|]. change (path_toks (x :: z :: p_)) with (name_tok x :: tok_of tok_dot :: path_toks (z :: p_)). now rewrite IHp. Qed.
Lemma f_path p y p_ rest s : p_ <> [] -> hd_ok (not_k tok_dot) rest -> At p y s (path_toks p_ ++ rest) -> fw (parseAttrPath rec) s (post (some_ (is_path p_) rest) p y).
Proof.
  intros N K A. destruct p_ as [|x p_]; [contradiction|]. rewrite path_loop_toks in A. cbn [app] in A. unfold parseAttrPath. apply fw_bind.
  some_call; [apply sp_name|]. sts. some_call; [apply sp_pathloop; exact K|]. sts. apply done; auto.
  destruct N1 as (i & r & ns' & ds' & -> & F). exists i, r, (n :: ns'), ds'. split; [reflexivity|]. now constructor.
Qed.
Lemma f_path_none p y l s : hd_ok (fun k => negb (name_start k)) l -> At p y s l -> fw (parseAttrPath rec) s (post (none_ l) p y).
Proof. intros K A. unfold parseAttrPath. apply fw_bind. none_call; [apply sp_name_none; auto|]. sts. now apply done_none. Qed.
Lemma f_pathloop y c ns ds prev p_ rest s : hd_ok (not_k tok_dot) rest -> At true y s (flat_map (fun x => [tok_of tok_dot; name_tok x]) p_ ++ rest) ->
  fw (parseAttrPathLoop rec c ns ds prev) s (post (some_ (fun n => exists i r ns' ds', n = NAttrPath i r (ns ++ ns') ds' /\ Forall2 is_name p_ ns') rest) true y).
Proof.
  intros K A. unfold parseAttrPathLoop. destruct p_ as [|x p_]; norm.
  - apply fw_bind. peek_hd; [exact K|]. unfold not_k in K0. destruct (tkind_beq (tk t) tok_dot); [discriminate|]. sts. apply done; auto.
    do 4 eexists. rewrite <- (app_nil_r ns) at 1. split; [reflexivity|constructor].
  - sts. some_call; [apply sp_name|]. sts. some_call; [apply sp_pathloop; exact K|]. apply done; auto.
    destruct N0 as (i' & r & ns' & ds' & -> & F). do 4 eexists. rewrite <- app_assoc. split; [reflexivity|]. now constructor.
Qed.
Lemma f_binding p y p_ e rest s : p_ <> [] -> wf LExpr e -> At p y s (btoks (Bnd p_ e) ++ rest) -> fw (parseBinding src rec) s (post (some_ (is_bind (Bnd p_ e)) rest) p y).
Proof.
  intros N W A. norm. unfold parseBinding. apply fw_bind. some_call; [apply sp_path; auto; reflexivity|]. sts.
  some_call; [apply sp_expr; auto; reflexivity|]. sts. apply done; auto. now constructor.
Qed.
Lemma f_binding_none p y l s : hd_ok (fun k => negb (name_start k)) l -> At p y s l -> fw (parseBinding src rec) s (post (none_ l) p y).
Proof. intros K A. unfold parseBinding. apply fw_bind. none_call; [apply sp_path_none; auto|]. sts. now apply done_none. Qed.
Lemma f_inheritloop p y tok e ns xs rest s : (ns = [] -> xs <> []) -> At p y s (map name_tok xs ++ tok_of tok_semi_colon :: rest) ->
  fw (parseInheritLoop src rec tok e ns) s (post (some_ (fun n => exists ns' i r, n = NInherit i r (ns ++ ns') e /\ Forall2 is_name xs ns') rest) p y).
Proof.
  intros H A. unfold parseInheritLoop. apply fw_bind. destruct xs as [|x xs]; norm.
  - none_call; [apply sp_name_none; reflexivity|]. sts. destruct ns as [|n ns]; [now destruct (H eq_refl)|]. sts. apply done; auto. exists [], i, r. rewrite app_nil_r. auto.
  - some_call; [apply sp_name|]. some_call; [apply sp_inheritloop; intros Z; now destruct ns|]. apply done; auto.
    destruct N0 as (ns' & i & r & -> & F). exists (n :: ns'), i, r. rewrite <- app_assoc. split; [reflexivity|]. now constructor.
Qed.
Lemma f_inherit p y from xs rest s : wfb (Inh from xs) -> At p y s (btoks (Inh from xs) ++ rest) -> fw (parseInherit src rec) s (post (some_ (is_bind (Inh from xs)) rest) p y).
Proof.
  intros W A. norm. inversion W as [|? ? Wf Hx]; subst. unfold parseInherit. destruct from as [e|]; norm.
  - sts. some_call; [apply sp_expr; auto; reflexivity|]. sts. some_call; [apply sp_inheritloop; auto|]. sts. apply done; auto.
    destruct N0 as (ns' & i & r & -> & F). constructor; auto. now constructor.
  - destruct xs as [|x xs]; [contradiction|]. norm. sts. some_call; [apply (sp_inheritloop _ _ _ _ [] (x :: xs)); auto|]. sts. apply done; auto.
    destruct N as (ns' & i & r & -> & F). constructor; auto. constructor.
Qed.
Lemma f_inherit_none p y l s : hd_ok (not_k tok_kw_inherit) l -> At p y s l -> fw (parseInherit src rec) s (post (none_ l) p y).
Proof. intros K A. unfold parseInherit. apply fw_bind. peek_hd; [exact K|]. unfold not_k in K0. rewrite K0. sts. now apply done_none. Qed.

Lemma fw_noUnexpected p y s k v l (Q : bool -> pst -> Prop) : At p y s ((k, v) :: l) -> kmem k y = true ->
  (forall s', At p y s' ((k, v) :: l) -> Q false s') -> fw (removeUnexpected src) s Q.
Proof.
  intros A K H. unfold removeUnexpected, consumeAsUnknown. apply fw_bind. apply fw_bind. eapply fw_peek; [exact A|reflexivity|]. intros t s' T V A'.
  apply fw_bind. cbn [unknown_loop]. apply fw_bind. eapply fw_peek; [exact A'|reflexivity|]. intros t' s2 T' V' A2. unfold fw at 1.
  replace (psync s2) with y by (symmetry; apply A2). rewrite T', K, Bool.orb_true_r. apply fw_ret. apply fw_ret. apply H. exact A2.
Qed.
Lemma bind_head d rest : wfb d -> hd_ok (fun k => match k with tok_id | tok_kw_inherit => true | _ => false end) (btoks d ++ rest).
Proof. intros W. inversion W; subst; cbn; [|reflexivity]. destruct p as [|x p]; [contradiction|]. rewrite path_loop_toks. reflexivity. Qed.
Lemma f_bindsloop y c acc bs k v rest s : Forall wfb bs -> In k [tok_r_curly; tok_kw_in] -> kmem k y = true ->
  At true y s (flat_map btoks bs ++ (k, v) :: rest) ->
  fw (parseBindsLoop src rec c acc) s
      (post (fun o l' => l' = (k, v) :: rest /\ exists ns, Forall2 is_bind bs ns /\
         match acc ++ ns with [] => o = None | l => exists i r, o = Some (NBinds i r l) end) true y).
Proof.
  intros W Ik K A. unfold parseBindsLoop. destruct bs as [|d bs]; norm; apply fw_bind.
  - none_call; [apply sp_binding_none; destruct Ik as [<-|[<-|[]]]; reflexivity|]. st. none_call; [apply sp_inherit_none; destruct Ik as [<-|[<-|[]]]; reflexivity|].
    st. eapply fw_noUnexpected; [exact A|exact K|]. clear dependent s. intros s A. cbv iota.
    destruct acc as [|a acc]; sts; (eexists; split; [split; [reflexivity|]|eassumption]); exists []; (split; [constructor|]); rewrite app_nil_r; eauto.
  - inversion W; subst. destruct d as [p_ e|from xs].
    + inversion H1; subst. some_call; [apply (sp_binding _ _ p_ e); auto|].
      eapply fw_mono; [eapply (IH (QBindsLoop c (acc ++ [n]))); [apply sp_bindsloop; eauto|exact A]|]. intros o s' (l' & [-> (ns & F & X)] & A').
      eexists. split; [split; [reflexivity|]|exact A']. exists (n :: ns). rewrite <- app_assoc in X. auto.
    + none_call; [apply sp_binding_none; reflexivity|]. st. some_call; [apply (sp_inherit _ _ from xs); auto|].
      eapply fw_mono; [eapply (IH (QBindsLoop c (acc ++ [n]))); [apply sp_bindsloop; eauto|exact A]|]. intros o s' (l' & [-> (ns & F & X)] & A').
      eexists. split; [split; [reflexivity|]|exact A']. exists (n :: ns). rewrite <- app_assoc in X. auto.
Qed.
Lemma fw_lCur_hd p y s l (Q : cursor -> pst -> Prop) : l <> [] -> At p y s l -> (forall c s', At p y s' l -> Q c s') -> fw lCur s Q.
Proof. intros N A H. destruct l as [|x l]; [contradiction|]. eapply fw_lCur; eauto. Qed.
Lemma f_binds y bs k v rest s : Forall wfb bs -> In k [tok_r_curly; tok_kw_in] -> kmem k y = true -> At true y s (flat_map btoks bs ++ (k, v) :: rest) ->
  fw (parseBinds rec) s (post (fun o l' => l' = (k, v) :: rest /\ are_binds bs o) true y).
Proof.
  intros W Ik K A. unfold parseBinds. st. eapply fw_lCur_hd; [|exact A|]; [now destruct (flat_map btoks bs)|]. clear dependent s. intros c s A. do 4 st.
  eapply fw_mono; [eapply IH; [eapply sp_bindsloop; [exact W|exact Ik|]|eassumption]|].
  - unfold kmem in *. cbn [existsb]. rewrite K, !Bool.orb_true_r. reflexivity.
  - intros o s' (l' & [-> (ns & F & X)] & A'). cbn [app] in X. rewrite Bool.orb_true_r in A'. do 4 st.
    eexists. rewrite Bool.orb_true_r. split; [split; [reflexivity|]|eassumption].
    destruct ns as [|n ns]; [subst; inversion F; subst; constructor|]. destruct X as (i & r & ->). constructor; auto. inversion F; subst. discriminate.
Qed.
Lemma f_attrs p y r bs rest s : wf LSimple (Set_ r bs) -> At p y s (toks (Set_ r bs) ++ rest) -> fw (parseExprAttrs src rec) s (post (some_ (is_tree (Set_ r bs)) rest) p y).
Proof.
  intros W A. inversion W as [| | | | | |? ? W1 D| | | | | | | | | | | | | | | ]; subst. unfold parseExprAttrs.
  assert (X : forall rn s, At true (tok_r_curly :: y) s (flat_map btoks bs ++ tok_of tok_r_curly :: rest) -> (r = true <-> rn <> None) ->
    forall c m k0, fw (rec QBinds) s (fun binds s' => fw (let! er2 := expect src tok_r_curly in
      do! (match er2 with Some _ => PSupModel.consume | None => noteMatch m k0 end) in
      let! r := toLast c in let! a := onExprAttrs r binds rn in ok_ a) s'
      (fun a s2 => exists p2 l2, At p2 (tok_r_curly :: y) s2 l2 /\ forall s3, At p2 y s3 l2 -> post (some_ (is_tree (Set_ r bs)) rest) p y a s3))).
  { intros rn s' A' Hr c m k0. eapply fw_mono; [refine (IH _ _ _ _ _ (sp_binds _ _ _ _ _ W1 _ _) _ A'); [now left|reflexivity]|].
    intros o s2 (l' & [-> B] & A2). rewrite Bool.orb_true_r in A2. sts. eapply fw_onExprAttrs; [eassumption|exact B|exact W1|exact D|].
    intros i st dy s3 A3. sts. apply done; auto. now constructor. }
  destruct r; norm.
  - sts. eapply X; [eassumption|]. split; [discriminate|reflexivity].
  - sts. eapply X; [eassumption|]. split; [discriminate|congruence].
Qed.
Lemma f_if p y c t e rest s : wf LExpr c -> wf LExpr t -> wf LExpr e -> hd_ok stopE rest -> At p y s (toks (If_ c t e) ++ rest) ->
  fw (parseExprIf src rec) s (post (some_ (is_tree (If_ c t e)) rest) p y).
Proof.
  intros W1 W2 W3 K A. norm. unfold parseExprIf. sts. some_call; [apply sp_expr; auto; reflexivity|]. sts. some_call; [apply sp_expr; auto; reflexivity|].
  sts. some_call; [apply sp_expr; auto|]. sts. apply done; auto. now constructor.
Qed.
Lemma f_assert p y c e rest s : wf LExpr c -> wf LExpr e -> hd_ok stopE rest -> At p y s (toks (Assert_ c e) ++ rest) ->
  fw (parseExprAssert src rec) s (post (some_ (is_tree (Assert_ c e)) rest) p y).
Proof.
  intros W1 W2 K A. norm. unfold parseExprAssert. sts. some_call; [apply sp_expr; auto; reflexivity|]. sts. some_call; [apply sp_expr; auto|].
  sts. apply done; auto. now constructor.
Qed.
Lemma f_with p y c e rest s : wf LExpr c -> wf LExpr e -> hd_ok stopE rest -> At p y s (toks (With_ c e) ++ rest) ->
  fw (parseExprWith src rec) s (post (some_ (is_tree (With_ c e)) rest) p y).
Proof.
  intros W1 W2 K A. norm. unfold parseExprWith. sts. some_call; [apply sp_expr; auto; reflexivity|]. sts. some_call; [apply sp_expr; auto|].
  sts. apply done; auto. now constructor.
Qed.
Lemma f_let p y bs e rest s : Forall wfb bs -> NoDup (flat_map defines bs) -> wf LExpr e -> hd_ok stopE rest -> At p y s (toks (Let_ bs e) ++ rest) ->
  fw (parseExprLet src rec) s (post (some_ (is_tree (Let_ bs e)) rest) p y).
Proof.
  intros W D W2 K A. norm. unfold parseExprLet. sts. eapply fw_mono; [refine (IH _ _ _ _ _ (sp_binds _ _ _ _ _ W _ _) _ A); [right; now left|reflexivity]|].
  intros o s' (l' & [-> B] & A'). rewrite Bool.orb_true_r in A'. destruct o as [bn|].
  - st. st. eapply fw_onExprAttrs; [exact A'|exact B|exact W|exact D|]. intros i st dy s3 A3. sts. some_call; [apply sp_expr; auto|]. sts. apply done; auto.
    constructor; auto. inversion B; subst; auto.
  - sts. some_call; [apply sp_expr; auto|]. sts. apply done; auto. inversion B; subst. now constructor.
Qed.

Lemma f_formal p y first f rest s : (forall d, snd f = Some d -> wf LExpr d) ->
  hd_ok (fun k => match k with tok_comma | tok_r_curly => true | _ => false end) rest -> At p y s (sep first ++ ftok f ++ rest) ->
  fw (parseFormal rec) s (post (some_ (fun n => is_formal f n /\ (first = false -> f_comma n <> None)) rest) p y).
Proof.
  intros W K A. destruct f as [x d]. unfold parseFormal.
  assert (X : forall q c lc s, At q y s (ftok (x, d) ++ rest) -> (first = false -> c <> None) ->
    fw (let! t := peek 0 in match tk t with
        | tok_id => do! PSupModel.consume in do! assertLast in let! ii := fresh in
            let ident := NIdent ii (trange t) (tview t) in let! k := peekk 0 in
            if negb (tkind_beq k tok_question) then let! r := toLast lc in let! i := fresh in ok_ (NFormal i r c (Some ident) None None)
            else do! PSupModel.consume in let! d := rec QExpr in do! orNull d "default value" in let! r := toLast lc in
              let! i := fresh in ok_ (NFormal i r c (Some ident) d None)
        | tok_ellipsis => do! PSupModel.consume in do! assertLast in let! ell := mkMisc (trange t) in let! r := toLast lc in
            let! i := fresh in ok_ (NFormal i r c None None (Some ell))
        | _ => match c with Some _ => do! assertLast in let! r := toLast lc in let! i := fresh in ok_ (NFormal i r c None None None)
               | None => ret None end end) s
      (post (some_ (fun n => is_formal (x, d) n /\ (first = false -> f_comma n <> None)) rest) p y)).
  { clear s A. intros q c lc s A Hc. destruct d as [d|]; norm.
    - sts. some_call; [apply sp_expr; [now apply W|]|].
      { eapply hd_weaken; [exact K|]. intros k0 K0. kinds k0. }
      sts. apply done; auto. split; [|exact Hc]. rewrite V. constructor; [now eexists _, _|]. now constructor.
    - sts. peek_hd; [exact K|]. replace (tkind_beq k tok_question) with false by (kinds k). sts. apply done; auto. split; [|exact Hc].
      rewrite V. constructor; [now eexists _, _|]. now constructor. }
  destruct first; cbn [sep] in A.
  - norm. do 6 st. apply (X p None); [assumption|discriminate].
  - norm. do 9 st. apply (X true (Some m)); [assumption|discriminate].
Qed.
Lemma f_formal_ell p y first rest s : At p y s (sep first ++ tok_of tok_ellipsis :: rest) ->
  fw (parseFormal rec) s (post (some_ (fun n => are_ellipsis true [n] /\ (first = false -> f_comma n <> None)) rest) p y).
Proof.
  intros A. unfold parseFormal. destruct first; cbn [sep] in A; norm; sts; (apply done; auto; split; [constructor|discriminate]).
Qed.
Lemma ftoks_hd fs el rest : hd_ok (fun k => match k with tok_comma | tok_r_curly => true | _ => false end) (ftoks false fs el ++ tok_of tok_r_curly :: rest).
Proof. destruct fs; [destruct el|]; reflexivity. Qed.
Lemma f_formalsloop_end p y tok fs acc ms' el rest s : Forall2 is_formal fs acc -> seps (acc ++ ms') -> are_ellipsis el ms' -> NoDup (map fst fs) ->
  At p y s (tok_of tok_r_curly :: rest) ->
  fw (parseFormalsLoop src rec tok (acc ++ ms')) s (post (some_ (are_formals fs el) rest) p y).
Proof.
  intros F S_ E D A. unfold parseFormalsLoop. sts. eapply fw_onFormals; [eassumption..|]. intros i dd s' A' X. sts. apply done; auto.
  eexists _, _, _, _, _. split; [reflexivity|]. auto.
Qed.
Lemma seps_snoc acc (n : node) : seps acc -> (acc <> [] -> f_comma n <> None) -> seps (acc ++ [n]).
Proof.
  intros S_ K. unfold seps in *. destruct acc as [|a acc]; cbn in *; [constructor|]. apply Forall_app. split; auto. constructor; auto. apply K. discriminate.
Qed.
Lemma f_formalsloop p y tok fs0 acc fs el rest s : Forall2 is_formal fs0 acc -> seps acc -> NoDup (map fst (fs0 ++ fs)) ->
  (forall x d, In (x, Some d) fs -> wf LExpr d) ->
  At p y s (ftoks (match acc with [] => true | _ => false end) fs el ++ tok_of tok_r_curly :: rest) ->
  fw (parseFormalsLoop src rec tok acc) s (post (some_ (are_formals (fs0 ++ fs) el) rest) p y).
Proof.
  intros F S_ D W A. destruct fs as [|f fs].
  - destruct el.
    + unfold parseFormalsLoop. rewrite app_nil_r in *. cbn [ftoks] in A. rewrite <- app_assoc in A. cbn [app] in A.
      st. eapply (fw_peekk_hd (fun k => match k with tok_comma | tok_ellipsis => true | _ => false end)); [exact A|destruct acc; reflexivity|].
      clear dependent s. intros k s K A. replace (tkind_beq k tok_r_curly) with false by (kinds k). cbv beta iota zeta. st. some_call; [apply sp_formal_ell|].
      destruct N as [N1 N2]. eapply call_some; [eapply sp_formalsloop_end; [exact F| |exact N1|exact D]|exact A|].
      * apply seps_snoc; auto. intros X. apply N2. destruct acc; congruence.
      * clear dependent s. intros n0 s N0 A. apply done; auto.
    + cbn [ftoks app] in A. rewrite app_nil_r in *. rewrite <- (app_nil_r acc). eapply f_formalsloop_end; eauto; [|constructor]. now rewrite app_nil_r.
  - unfold parseFormalsLoop. cbn [ftoks] in A. rewrite <- !app_assoc in A.
    st. eapply (fw_peekk_hd (fun k => match k with tok_comma | tok_id => true | _ => false end)); [exact A|destruct acc; reflexivity|].
    clear dependent s. intros k s K A. replace (tkind_beq k tok_r_curly) with false by (kinds k). cbv beta iota zeta. st. some_call; [apply sp_formal|].
    + intros d E. apply (W (fst f)). left. destruct f; cbn in *; congruence.
    + apply ftoks_hd.
    + destruct N as [N1 N2]. eapply call_some; [|exact A|].
      * replace (ftoks false fs el) with (ftoks (match acc ++ [n] with [] => true | _ => false end) fs el) by (now destruct acc).
        eapply (sp_formalsloop _ _ _ (fs0 ++ [f])).
        -- apply Forall2_app; auto.
        -- apply seps_snoc; auto. intros X. apply N2. destruct acc; congruence.
        -- rewrite <- app_assoc. exact D.
        -- intros x d I0. apply (W x). now right.
      * clear dependent s. intros n0 s N0 A. apply done; auto. rewrite <- app_assoc in N0. exact N0.
Qed.
Lemma f_formals p y fs el rest s : NoDup (map fst fs) -> (forall x d, In (x, Some d) fs -> wf LExpr d) ->
  At p y s ([tok_of tok_l_curly] ++ ftoks true fs el ++ tok_of tok_r_curly :: rest) ->
  fw (parseFormals src rec) s (post (some_ (are_formals fs el) rest) p y).
Proof.
  intros D W A. norm. unfold parseFormals. sts. some_call; [apply (sp_formalsloop _ _ _ [] []); auto; constructor|]. sts. apply done; auto.
Qed.
Lemma f_arg_id p y x rest s : hd_ok (not_k tok_at) rest -> At p y s (name_tok x :: rest) ->
  fw (parseLambdaArg src rec) s (post (some_ (fun n => exists i r nx, is_ident x nx /\ n = NLambdaArg i r (Some nx) None) rest) p y).
Proof.
  intros K A. unfold parseLambdaArg, name_tok in *. sts. peek_hd; [exact K|]. unfold not_k in K0. rewrite K0. sts.
  eapply fw_onLambdaArg; [eassumption|discriminate|]. intros i0 s' A'. sts. apply done; auto. rewrite V. eexists _, _, _. split; [now eexists _, _|reflexivity].
Qed.
Lemma formals_at fs el f x : are_formals fs el f -> ~ In x (map fst fs) -> dedup_at f x = None.
Proof. intros (jf & rf & ms & ms' & dd & -> & _ & _ & H) N. cbn. now rewrite H. Qed.
Lemma f_arg_set p y bf fs el af rest s : NoDup (optlist_ bf ++ optlist_ af ++ map fst fs) -> bf = None \/ af = None ->
  (forall x d, In (x, Some d) fs -> wf LExpr d) -> hd_ok (not_k tok_at) rest -> At p y s (arg_toks bf fs el af ++ rest) ->
  fw (parseLambdaArg src rec) s (post (some_ (is_arg bf fs el af) rest) p y).
Proof.
  intros D O W K A. unfold parseLambdaArg. destruct bf as [x|]; norm.
  - destruct O as [O| ->]; [discriminate|]. norm. inversion D; subst. unfold name_tok in A. sts. some_call; [apply sp_formals; auto|].
    sts. eapply fw_onLambdaArg; [eassumption| |].
    + intros i0 f0 [= <-] [= <-]. cbn [ident_name]. rewrite V. eapply formals_at; eauto.
    + intros i0 s' A'. sts. apply done; auto. eexists _, _, _, _. split; [reflexivity|]. split; auto. rewrite V. constructor. now eexists _, _.
  - sts. some_call; [apply sp_formals; auto|].
    { destruct af; [now inversion D|auto]. }
    destruct af as [x|]; norm.
    + inversion D; subst. unfold name_tok in A. sts. eapply fw_onLambdaArg; [eassumption| |].
      * intros i0 f0 [= <-] [= <-]. cbn [ident_name]. rewrite V1. eapply formals_at; eauto.
      * intros i0 s' A'. sts. apply done; auto. eexists _, _, _, _. split; [reflexivity|]. split; auto. rewrite V1. constructor. now eexists _, _.
    + sts. peek_hd; [exact K|]. unfold not_k in K0. rewrite K0. sts. eapply fw_onLambdaArg; [eassumption|discriminate|].
      intros i0 s' A'. sts. apply done; auto. eexists _, _, _, _. split; [reflexivity|]. split; auto. constructor.
Qed.
Lemma f_lam p y x e rest s : wf LExpr e -> hd_ok stopE rest -> At p y s (toks (Lam x e) ++ rest) ->
  fw (parseExprLambda src rec) s (post (some_ (is_tree (Lam x e)) rest) p y).
Proof.
  intros W K A. norm. unfold parseExprLambda. sts. some_call; [apply sp_arg_id; reflexivity|]. sts. some_call; [now apply sp_expr|]. sts. apply done; auto.
  destruct N as (i0 & r0 & nx & N & ->). now constructor.
Qed.
Lemma ftoks_commas fs el : commas (map ftok fs ++ (if el : bool then [[tok_of tok_ellipsis]] else [])) = ftoks true fs el.
Proof.
  assert (X : forall fs l, l = map ftok fs ++ (if el then [[tok_of tok_ellipsis]] else []) ->
    ftoks false fs el = match l with [] => [] | _ => tok_of tok_comma :: commas l end).
  { induction fs0 as [|f fs0 IH0]; intros l ->; [destruct el; reflexivity|]. cbn [map app ftoks sep]. rewrite (IH0 _ eq_refl). cbn [commas].
    destruct (map ftok fs0 ++ _); [now rewrite app_nil_r|reflexivity]. }
  destruct fs as [|f fs]; [destruct el; reflexivity|]. cbn [map app ftoks sep commas]. rewrite (X _ _ eq_refl).
  destruct (map ftok fs ++ _); [now rewrite app_nil_r|reflexivity].
Qed.
Lemma lamset_toks bf fs el af e : toks (LamSet bf fs el af e) = arg_toks bf fs el af ++ tok_of tok_colon :: toks e.
Proof. unfold arg_toks. rewrite <- ftoks_commas. cbn [toks]. rewrite <- !app_assoc. reflexivity. Qed.
Lemma arg_toks_hd bf fs el af l : arg_toks bf fs el af ++ l <> [].
Proof. unfold arg_toks. destruct bf; discriminate. Qed.
Lemma f_lamset p y bf fs el af e rest s : wf LExpr (LamSet bf fs el af e) -> hd_ok stopE rest -> At p y s (toks (LamSet bf fs el af e) ++ rest) ->
  fw (parseExprLambda src rec) s (post (some_ (is_tree (LamSet bf fs el af e)) rest) p y).
Proof.
  intros W K A. inversion W as [| | | | | | | | | | | | | | |? W1| | | | | |? ? ? ? ? D O F W1]; subst; [inversion W1 as [| | | | | | | | | | |? W2| | | | | | | | | | ]; subst; inversion W2 as [| | | | | | | | |? W3| | | | | | | | | | | | ]; subst; inversion W3 as [| | | | | | |? W4| | | | | | | | | | | | | | ]; subst; inversion W4|].
  rewrite lamset_toks in A. rewrite <- app_assoc in A. cbn [app] in A. unfold parseExprLambda. st.
  eapply fw_lCur_hd; [|exact A|]; [apply arg_toks_hd|]. clear dependent s. intros c s A. sts. some_call; [apply sp_arg_set; auto; reflexivity|]. sts. some_call; [now apply sp_expr|]. sts. apply done; auto.
  destruct N as (i0 & r0 & nx & f & -> & (jf & rf & ms & ms' & dd & -> & F1 & F2 & _) & N). now constructor.
Qed.
End Fun.
