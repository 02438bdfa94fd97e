(** For whole documents: every parsing function keeps track of what the semantic actions have reported. *)
From Verif Require Import Base Diag LexModel AstModel PSupModel SemaModel ParseModel ParseSpec ParseTree SemaSpec IdTree DocSpec DocBase.

Definition acc (q : nt) : list node :=
  match q with
  | QOpLoop _ p => [p]
  | QAppLoop f l => f :: l
  | QListLoop _ l | QBindsLoop _ l | QFormalsLoop _ l => l
  | QParts _ fs | QPathLoop _ fs => interps fs
  | QAttrPathLoop _ ns ds _ => ns ++ ds
  | QInheritLoop _ e ns => ns ++ optlist e
  | _ => []
  end.
Definition post (C : list node) (o : option node) (C' : list node) (_ : bool) : Prop := C' = C ++ optlist o.

Lemma interps_snoc l x : interps (l ++ [inl x]) = interps l.
Proof. unfold interps. rewrite flat_map_app. cbn. now rewrite app_nil_r. Qed.
Lemma interps_snoc_r l n : interps (l ++ [inr n]) = interps l ++ [n].
Proof. unfold interps. now rewrite flat_map_app. Qed.

Ltac head_of n := lazymatch n with ?f _ => head_of f | _ => n end.
Ltac open1 m :=
  match goal with
  | |- context [node_of ?n m] => let h := head_of n in is_constructor h; rewrite (node_iff n); cbn [children]
  end.
Ltac flat m :=
  rewrite ?IdTree.present_app, ?IdTree.present_cons, ?present_some, ?interps_merge; rewrite ?interps_snoc_r, ?interps_snoc;
  cbn [present flat_map optlist app]; repeat first [rewrite under_app|rewrite under_cons|rewrite under_nil].
Ltac close := intuition (subst; cbn [plain]; auto).
Ltac cov := split; intros m; cbn [acc optlist app]; flat m; repeat (open1 m; flat m); close.

Section Step.
Variable src : bytes.
Variable rec : nt -> P (option node).
Local Notation wpj := (wpj src).
Hypothesis Hr : forall q C b, wpj (rec q) (C ++ acc q) b (post C).

Lemma wpj_ok C C1 b n : covers C1 (C ++ [n]) -> wpj (ok_ n) C1 b (post C).
Proof. intros H. apply (wpj_conv _ _ _ _ _ _ H). apply wpj_ret. reflexivity. Qed.
Lemma wpj_none C C1 b : covers C1 C -> wpj (ret None) C1 b (post C).
Proof. intros H. apply (wpj_conv _ _ _ _ _ _ H). apply wpj_ret. unfold post. cbn. now rewrite app_nil_r. Qed.
Lemma wpj_rec q C C1 b : covers C1 (C ++ acc q) -> wpj (rec q) C1 b (post C).
Proof. intros H. apply (wpj_conv _ _ _ _ _ _ H). apply Hr. Qed.

Ltac RQ o := lazymatch goal with
  | |- DocBase.wpj _ (rec ?q) ?C ?b _ => eapply wpj_weak; [apply (wpj_rec q C); cov|unfold post at 1; intros o ? ? ->]
  end.
Ltac S1 :=
  match goal with
  | |- DocBase.wpj _ (pbind _ _) _ _ _ => apply wpj_bind
  | |- DocBase.wpj _ (ok_ _) _ _ (post _) => apply wpj_ok; cov
  | |- DocBase.wpj _ (ret (Some _)) _ _ (post _) => apply wpj_ok; cov
  | |- DocBase.wpj _ (ret None) _ _ (post _) => apply wpj_none; cov
  | |- DocBase.wpj _ (ret _) _ _ _ => apply wpj_ret
  | |- DocBase.wpj _ (ok_ _) _ _ _ => apply wpj_ret
  | |- DocBase.wpj _ (crash _) _ _ _ => apply wpj_crash
  | |- DocBase.wpj _ (mkMisc _) _ _ _ => apply wpj_misc; intros ?
  | |- DocBase.wpj _ (withSync _ _) _ _ _ => apply wpj_withSync
  | |- DocBase.wpj _ (withState _ _ _) _ _ _ => apply wpj_withState
  | |- DocBase.wpj _ (expect _ _) _ _ _ => apply wpj_expect; [intros ?|]
  | |- DocBase.wpj _ (diagNullExpr _) _ _ _ => apply wpj_diagNull
  | |- DocBase.wpj _ (emit _) _ _ _ => apply wpj_emit; [reflexivity|]
  | |- DocBase.wpj _ (noteMatch _ _) _ true _ => apply wpj_noteMatch
  | |- DocBase.wpj _ (addFix _ _) _ true _ => apply wpj_addFix
  | |- DocBase.wpj _ (upd_last _) _ true _ => apply wpj_upd; [reflexivity|]
  | |- DocBase.wpj _ _ _ _ _ => apply wpj_adds; [solve [auto with adds nocore]|intros ?]
  | |- DocBase.wpj _ (rec ?q) _ _ _ => lazymatch q with context [match ?x with _ => _ end] => destruct x end
  | |- DocBase.wpj _ (rec _) _ _ (post _) => apply wpj_rec; cov
  | |- DocBase.wpj _ (rec _) _ _ _ => let o := fresh "o" in RQ o; destruct o; cbn [optlist]; cbv beta iota
  | |- DocBase.wpj _ (match ?x with _ => _ end) _ _ _ => destruct x
  | |- DocBase.wpj _ (let _ := _ in _) _ _ _ => cbv zeta
  end.
Ltac go := repeat S1.
Ltac act C :=
  lazymatch goal with
  | |- DocBase.wpj _ (onExprAttrs ?r ?bd ?rc) _ _ _ =>
      apply (wpj_conv src _ _ (C ++ optlist bd ++ optlist rc)); [cov|apply wpj_attrs; intros ? ? ?]
  | |- DocBase.wpj _ (onFormals _ ?r ?fv) _ _ _ => apply (wpj_conv src _ _ (C ++ fv)); [cov|apply wpj_formals; intros ? ?]
  | |- DocBase.wpj _ (onLambdaArg ?r ?i ?f) _ _ _ => apply (wpj_conv src _ _ (C ++ optlist i ++ optlist f)); [cov|apply wpj_arg; intros ?]
  end.
Ltac goa C := repeat (act C || S1).

Lemma s_paren C b : wpj (parseExprParen src rec) C b (post C).
Proof. unfold parseExprParen. go. Qed.
Lemma s_listLoop tok l C b : wpj (parseExprListLoop src rec tok l) (C ++ l) b (post C).
Proof. unfold parseExprListLoop. go. Qed.
Lemma s_list C b : wpj (parseExprList rec) C b (post C).
Proof. unfold parseExprList. go. Qed.
Lemma s_simple C b : wpj (parseExprSimple rec) C b (post C).
Proof. unfold parseExprSimple. go. Qed.
Lemma s_interp C b : wpj (parseInterpolation src rec) C b (post C).
Proof. unfold parseInterpolation. go. Qed.
Lemma s_pathLoop tok l C b : wpj (parseExprPathLoop rec tok l) (C ++ interps l) b (post C).
Proof. unfold parseExprPathLoop. go.
Qed.
Lemma s_path C b : wpj (parseExprPath src rec) C b (post C).
Proof. unfold parseExprPath. go. Qed.
Lemma s_parts c l C b : wpj (parseStringParts rec c l) (C ++ interps l) b (post C).
Proof. unfold parseStringParts. go. Qed.
Lemma s_string c C b : wpj (parseString src rec c) C b (post C).
Proof. unfold parseString. go. Qed.
Lemma s_select C b : wpj (parseExprSelect rec) C b (post C).
Proof. unfold parseExprSelect. go. Qed.
Lemma s_appLoop f l C b : wpj (parseExprAppLoop rec f l) (C ++ f :: l) b (post C).
Proof.
  unfold parseExprAppLoop. go.
Qed.
Lemma s_app C b : wpj (parseExprApp rec) C b (post C).
Proof. unfold parseExprApp. go. Qed.
Lemma s_expr C b : wpj (parseExpr rec) C b (post C).
Proof. unfold parseExpr. go. Qed.
Lemma s_if C b : wpj (parseExprIf src rec) C b (post C).
Proof. unfold parseExprIf. go. Qed.
Lemma s_assert C b : wpj (parseExprAssert src rec) C b (post C).
Proof. unfold parseExprAssert. go. Qed.
Lemma s_with C b : wpj (parseExprWith src rec) C b (post C).
Proof. unfold parseExprWith. go. Qed.
Lemma s_let C b : wpj (parseExprLet src rec) C b (post C).
Proof. unfold parseExprLet. goa C. Qed.
Lemma s_legacyLet C b : wpj (parseExprLegacyLet src rec) C b (post C).
Proof. unfold parseExprLegacyLet. goa C. Qed.
Lemma s_opLoop bp p C b : wpj (parseExprOpLoop rec bp p) (C ++ [p]) b (post C).
Proof.
  unfold parseExprOpLoop. apply wpj_bind, wpj_adds; [A|]. intros tok.
  assert (Bin : forall rbp what b, wpj (do! consume in do! assertLast in let! io := fresh in let! rhs := rec (QOp rbp) in
    match rhs with
    | None => do! diagNullExpr what in rec (QOpLoop bp p)
    | Some rn => let! i := fresh in
        rec (QOpLoop bp (NBinOp i (mkRange (nl p) (nr rn)) (NOp io (trange tok) (tk tok)) (Some p) (Some rn)))
    end) (C ++ [p]) b (post C)) by (intros rbp what b2; go).
  cbv zeta. destruct (isBinOp (tk tok)).
  - destruct (getBP (tk tok)) as [[lbp rbp]|]; [|apply wpj_crash]. destruct (Nat.ltb lbp bp); [go|].
    apply wpj_bind, wpj_adds; [A|]. intros _. apply Bin.
  - assert (Ok1 : forall b2, wpj (ok_ p) (C ++ [p]) b2 (post C)) by (intros b2; go).
    destruct (tk tok) eqn:Ek; try apply Ok1; rewrite <- Ek in *.
    all: lazymatch goal with
    | |- DocBase.wpj _ (pbind consume _) _ _ _ => go
    | |- _ => clear Ok1; apply wpj_bind, wpj_adds; [A|]; intros f; apply wpj_bind, wpj_emit; [reflexivity|]; apply Bin
    end.
Qed.
Lemma s_op bp C b : wpj (parseExprOpBP rec bp) C b (post C).
Proof.
  unfold parseExprOpBP. apply wpj_bind, wpj_adds; [A|]. intros lc. apply wpj_bind, wpj_adds; [A|]. intros tok. apply wpj_bind.
  assert (Un : wpj (do! consume in do! assertLast in let! io := fresh in let! e := rec (QOp (getUnaryBP (tk tok))) in
     do! (match e with
          | Some _ => ret tt
          | None => match tk tok with tok_op_not => diagNullExpr "unary operator !" | _ => diagNullExpr "unary operator -" end
          end) in
     let! r := toLast lc in let! i := fresh in ok_ (NUnary i r (NOp io (trange tok) (tk tok)) e)) C b
     (fun o C' b' => wpj match o with None => ret None | Some p => rec (QOpLoop bp p) end C' b' (post C))).
  { apply wpj_bind, wpj_adds; [A|]. intros _. apply wpj_bind, wpj_adds; [A|]. intros _. apply wpj_bind, wpj_adds; [A|]. intros io.
    apply wpj_bind. RQ e. apply wpj_bind. destruct e; [|destruct (tk tok)]; go. }
  assert (Pl : forall q, acc q = [] -> wpj (rec q) C b (fun o C' b' => wpj match o with None => ret None | Some p => rec (QOpLoop bp p) end C' b' (post C))).
  { intros q Eq. eapply wpj_weak; [apply (wpj_rec q C); rewrite Eq; cov|]. unfold post at 1. intros o C' b' ->. destruct o; go. }
  destruct (tk tok) eqn:Ek; first [now apply Pl|rewrite <- Ek in Un |- *; exact Un].
Qed.
Lemma s_attrName C b : wpj (parseAttrName rec) C b (post C).
Proof.
  unfold parseAttrName. apply wpj_bind, wpj_adds; [A|]. intros tok. cbv zeta.
  assert (Id : forall b2, wpj (do! consume in let! ii := fresh in let! i := fresh in
    ok_ (NAttrName i (trange tok) (NIdent ii (trange tok) (tview tok)))) C b2 (post C)) by (intros b2; go).
  destruct (tk tok); first [apply Id|apply wpj_none; cov|apply wpj_bind, wpj_emit; [reflexivity|]; apply Id|clear Id; go].
Qed.
Lemma s_attrPathLoop c ns ds pv C b : wpj (parseAttrPathLoop rec c ns ds pv) (C ++ ns ++ ds) b (post C).
Proof. unfold parseAttrPathLoop. go. Qed.
Lemma s_attrPath C b : wpj (parseAttrPath rec) C b (post C).
Proof. unfold parseAttrPath. go. Qed.
Lemma s_binding C b : wpj (parseBinding src rec) C b (post C).
Proof. unfold parseBinding. go. Qed.
Lemma s_inheritLoop tok e ns C b : wpj (parseInheritLoop src rec tok e ns) (C ++ ns ++ optlist e) b (post C).
Proof. unfold parseInheritLoop. go. Qed.
Lemma s_inherit C b : wpj (parseInherit src rec) C b (post C).
Proof. unfold parseInherit. go. Qed.
Lemma s_bindsLoop c l C b : wpj (parseBindsLoop src rec c l) (C ++ l) b (post C).
Proof. unfold parseBindsLoop. go. Qed.
Lemma s_binds C b : wpj (parseBinds rec) C b (post C).
Proof. unfold parseBinds. go. Qed.
Lemma s_attrs C b : wpj (parseExprAttrs src rec) C b (post C).
Proof. unfold parseExprAttrs. goa C. Qed.
Lemma s_formal C b : wpj (parseFormal rec) C b (post C).
Proof. unfold parseFormal. go. Qed.
Lemma s_formalsLoop tok l C b : wpj (parseFormalsLoop src rec tok l) (C ++ l) b (post C).
Proof. unfold parseFormalsLoop. goa C. Qed.
Lemma s_formals C b : wpj (parseFormals src rec) C b (post C).
Proof. unfold parseFormals. go. Qed.
Lemma s_lambdaArg C b : wpj (parseLambdaArg src rec) C b (post C).
Proof. unfold parseLambdaArg. goa C. Qed.
Lemma s_lambda C b : wpj (parseExprLambda src rec) C b (post C).
Proof. unfold parseExprLambda. go. Qed.
Lemma s_step q C b : wpj (step src rec q) (C ++ acc q) b (post C).
Proof.
  destruct q; cbn [step acc]; rewrite ?app_nil_r.
  all: first [apply s_opLoop|apply s_appLoop|apply s_listLoop|apply s_parts|apply s_pathLoop|apply s_attrPathLoop
    |apply s_inheritLoop|apply s_bindsLoop|apply s_formalsLoop
    |apply s_expr|apply s_op|apply s_app|apply s_select|apply s_simple|apply s_paren|apply s_list|apply s_string|apply s_path
    |apply s_interp|apply s_attrName|apply s_attrPath|apply s_binding|apply s_inherit|apply s_binds|apply s_attrs|apply s_if|apply s_assert
    |apply s_let|apply s_legacyLet|apply s_with|apply s_formal|apply s_formals|apply s_lambdaArg|apply s_lambda].
Qed.
End Step.

Lemma run_J src fuel : forall q C b, wpj src (run src fuel q) (C ++ acc q) b (post C).
Proof.
  induction fuel as [|f IH]; intros q C b; cbn [run]; [intros s x s' _ E; discriminate|]. now apply s_step.
Qed.
Lemma parse_J src root ds : parse src = Ok (Some root, ds) -> exists s, J src [root] false s /\ ds = rev (diags (plex s)).
Proof.
  unfold parse, parse_st. intros H.
  destruct ((let! e := run src (parse_fuel src) QExpr in let! t := peek 0 in
     do! (if tkind_beq (tk t) tok_eof then ret tt else emit (diag0 DK_UnexpectedText (trange t))) in ret e) (pinit src)) as [[n s]| |] eqn:E; try discriminate.
  injection H as -> <-. exists s. split; [|reflexivity]. revert E.
  assert (W : wpj src (let! e := run src (parse_fuel src) QExpr in let! t := peek 0 in
     do! (if tkind_beq (tk t) tok_eof then ret tt else emit (diag0 DK_UnexpectedText (trange t))) in ret e) [] false (post [])).
  { apply wpj_bind. eapply wpj_weak; [apply (run_J src _ QExpr [])|]. intros o C b Hp.
    apply wpj_bind, wpj_adds; [A|]. intros t. apply wpj_bind, wpj_adds; [A|]. intros _. apply wpj_ret. exact Hp. }
  intros E. destruct (W (pinit src) _ _ ltac:(split; [|split; [|split]]; [intros m (x & [] & _)|intros d []|intros m st (x & [] & _)|discriminate]) E) as (C & b & Jc & ->).
  exact (J_weak _ _ _ _ Jc).
Qed.
