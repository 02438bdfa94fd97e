(** For C73: every parsing function gives its nodes new identities. *)
From Verif Require Import Base Diag LexModel AstModel PSupModel SemaModel ParseModel ParseSpec ParseTree IdTree IdSema.

Lemma k_passert c w : keeps (passert c w).
Proof. unfold passert. K. Qed.
Lemma k_upd f : keeps (upd_last f).
Proof. intros s a s' H. unfold upd_last in H. destruct (diags (plex s)); [discriminate|]. now injection H as <- <-. Qed.
Lemma k_lastR : keeps lastR.
Proof. intros s a s' H. unfold lastR in H. destruct (plast s); [|discriminate]. now injection H as <- <-. Qed.
#[export] Hint Resolve k_passert k_upd k_lastR : keeps.
Lemma k_assertLast : keeps assertLast.
Proof. unfold assertLast. K. Qed.
Lemma k_toLast c : keeps (toLast c).
Proof. unfold toLast. K. Qed.
Lemma k_noteMatch r k : keeps (noteMatch r k).
Proof. unfold noteMatch. K. Qed.
Lemma k_addFix m e : keeps (addFix m e).
Proof. unfold addFix. K. Qed.
#[export] Hint Resolve k_assertLast k_toLast k_noteMatch k_addFix : keeps.
Lemma k_diagNull w : keeps (diagNullExpr w).
Proof. unfold diagNullExpr. K. Qed.
#[export] Hint Resolve k_diagNull : keeps.
Lemma k_orNull e w : keeps (orNull e w).
Proof. unfold orNull. K. Qed.
#[export] Hint Resolve k_orNull : keeps.
Lemma k_fill n : keeps (fill n).
Proof.
  induction n as [|n IH]; cbn [fill]; [K|]. intros s a s' H. destruct (pmodes s); [discriminate|].
  destruct (lex_mode p (plex s)) as [[t l0]| |]; try discriminate. apply IH in H. exact H.
Qed.
Lemma k_peek n : keeps (peek n).
Proof.
  intros s a s' H. unfold peek in H. destruct (fill _ s) as [[u s1]| |] eqn:E; try discriminate. apply k_fill in E.
  destruct (nth_error (pbuf s1) n); [|discriminate]. now injection H as <- <-.
Qed.
#[export] Hint Resolve k_peek : keeps.
Lemma k_peekk n : keeps (peekk n).
Proof. unfold peekk. K. Qed.
Lemma k_lCur : keeps lCur.
Proof. unfold lCur. K. Qed.
Lemma k_popBuf : keeps popBuf.
Proof. intros s a s' H. unfold popBuf in H. destruct (pbuf s); [discriminate|]. now injection H as <- <-. Qed.
#[export] Hint Resolve k_peekk k_lCur k_popBuf : keeps.
Lemma k_consume : keeps consume.
Proof.
  intros s a s' H. unfold consume in H. destruct (pbuf s).
  - revert H. assert (Z : keeps (do! peek 0 in do! popBuf in ret tt)) by K. apply Z.
  - revert H. assert (Z : keeps (do! popBuf in ret tt)) by K. apply Z.
Qed.
#[export] Hint Resolve k_consume : keeps.
Lemma k_withSync {A} k (m : P A) : keeps m -> keeps (withSync k m).
Proof.
  intros H s a s' E. unfold withSync in E. destruct (m _) as [[x s1]| |] eqn:F; try discriminate. apply H in F.
  injection E as <- <-. exact F.
Qed.
Lemma k_unknown f : forall c, keeps (unknown_loop f c).
Proof.
  induction f as [|f IH]; intros c; cbn [unknown_loop]; [intros s a s' H; discriminate|]. apply k_bind; [K|]. intros t s a s' H.
  destruct (_ || _)%bool; [now injection H as <- <-|]. revert H. assert (Z : keeps (do! consume in unknown_loop f true)) by (K; apply IH). apply Z.
Qed.
#[export] Hint Resolve k_unknown : keeps.
Lemma k_unk src : keeps (consumeAsUnknown src).
Proof. unfold consumeAsUnknown. K. Qed.
#[export] Hint Resolve k_unk : keeps.
Lemma k_rm src : keeps (removeUnexpected src).
Proof. unfold removeUnexpected. K. Qed.
#[export] Hint Resolve k_rm : keeps.
Lemma k_expect src k : keeps (expect src k).
Proof.
  unfold expect. apply k_withSync. K. intros s a' s' H. destruct (plast s); [now injection H as <- <-|]. now apply k_lCur in H.
Qed.
#[export] Hint Resolve k_expect : keeps.
Lemma k_reset src : keeps (resetLookAheadBuf src).
Proof.
  intros s a s' H. unfold resetLookAheadBuf in H. destruct (pbuf s); [now injection H as <- <-|].
  destruct (setCur _ _ _); try discriminate. now injection H as <- <-.
Qed.
#[export] Hint Resolve k_reset : keeps.
Lemma k_push src m : keeps (pushState src m).
Proof. unfold pushState. K. intros s x s' H. now injection H as <- <-. Qed.
Lemma k_pop src : keeps (popState src).
Proof. unfold popState. K. intros s x s' H. destruct (pmodes s); [discriminate|]. now injection H as <- <-. Qed.
#[export] Hint Resolve k_push k_pop : keeps.
Lemma k_sep l : forall f, keeps (checkFormalSep f l).
Proof. induction l as [|n l IH]; intros f; cbn [checkFormalSep]; repeat (K1 || apply IH). Qed.
Lemma k_removeFormal c f l : keeps (removeFormal c f l).
Proof. unfold removeFormal. K. Qed.
#[export] Hint Resolve k_sep k_removeFormal : keeps.
Lemma k_ell src la l : forall f, keeps (checkFormalEllipsis_f src f la l).
Proof.
  induction l as [|n l IH]; intros f; cbn [checkFormalEllipsis_f]; [K|]. destruct l; [K|]. pose proof IH as IH'. repeat (K1 || apply IH').
Qed.
Lemma k_empty l : keeps (checkFormalEmpty l).
Proof. induction l as [|n l IH]; cbn [checkFormalEmpty]; [K|]. destruct l; [K|]. pose proof IH as IH'. repeat (K1 || apply IH'). Qed.
Lemma k_dedup l : forall d, keeps (dedupFormal d l).
Proof. induction l as [|n l IH]; intros d; cbn [dedupFormal]; repeat (K1 || apply IH). Qed.
#[export] Hint Resolve k_ell k_empty k_dedup : keeps.
Lemma k_ellipsis src l : keeps (checkFormalEllipsis src l).
Proof. unfold checkFormalEllipsis. K. Qed.
#[export] Hint Resolve k_ellipsis : keeps.

Lemma wpn_withSync {A} k (m : P A) i Q : wpn m i Q -> wpn (withSync k m) i Q.
Proof.
  intros H s a s' E R. unfold withSync in R. destruct (m _) as [[x s1]| |] eqn:F; try discriminate.
  injection R as <- <-. exact (H (set_sync (k :: psync s) s) x s1 E F).
Qed.
Lemma wpn_withState {A} src md (m : P A) i Q : wpn m i Q -> wpn (withState src md m) i Q.
Proof.
  intros H. unfold withState. apply wpn_bind, wpn_keeps; [K|]. intros _. apply wpn_bind.
  eapply wpn_weak; [exact H|]. intros a j Qa. apply wpn_bind, wpn_keeps; [K|]. intros _. apply wpn_ret. exact Qa.
Qed.
Lemma wpn_misc r i (Q : node -> nat -> Prop) : Q (NMisc i r) (S i) -> wpn (mkMisc r) i Q.
Proof. intros H. unfold mkMisc. apply wpn_bind, wpn_fresh, wpn_ret. exact H. Qed.

(** the requests and their accumulators *)
Definition pre (q : nt) (a i : nat) : Prop :=
  match q with
  | QOpLoop _ p => D a i [p]
  | QAppLoop f l => D a i (f :: l)
  | QListLoop _ l | QBindsLoop _ l | QFormalsLoop _ l => D a i l
  | QParts _ fs | QPathLoop _ fs => D a i (interps fs)
  | QAttrPathLoop _ ns ds _ => D a i (ns ++ ds)
  | QInheritLoop _ e ns => D a i (ns ++ optlist e)
  | _ => a <= i
  end.
Definition post (a i : nat) (o : option node) (j : nat) : Prop := i <= j /\ D a j (optlist o).

Lemma DNil : D 0 0 [].
Proof. apply D_nil. Qed.

(** A node from its parts. *)
Ltac DL := solve [eapply D_mono; [eassumption|lia|lia] | eapply D_mono; [eapply D_nil|lia|lia]].
Ltac FL := first [ apply Forall_app; split; [FL|FL] | apply Forall_nil
                 | solve [eapply D_all; [eassumption|lia|lia]] ].
Ltac PT := first [ apply Forall_app; split; [PT|PT] | apply Forall_nil
                 | match goal with H : D _ _ ?l |- Forall ptidy ?l => apply H end
                 | solve [match goal with H : D _ _ ?l |- Forall ptidy _ => exact (proj2 (proj2 H)) end] ].
Ltac AP := first [ apply aparts_app_r; [AP|AP] | apply aparts_app_l; [AP|AP] | apply aparts_nil_r
                 | solve [eapply aparts_iv; [eassumption|eassumption|lia]]
                 | solve [intros ? ? []] ].
Ltac PR := first [ apply pairs_app; [PR|PR|AP] | apply FOP_nil | solve [eapply D_pairs; eassumption] ].
Ltac norm :=
  unfold fields; cbn [children];
  rewrite ?present_app, ?present_cons, ?present_some, ?interps_merge; cbn [present flat_map optlist];
  rewrite ?app_nil_r.
Ltac mk := apply D_mk; [reflexivity|lia|norm; FL|cbn [lrest]; norm; PR|exact I|norm; PT].

Section Step.
Variable src : bytes.
Variable rec : nt -> P (option node).
Hypothesis Hr : forall q a i, a <= i -> pre q a i -> wpn (rec q) i (post a i).

Ltac RQ o := lazymatch goal with
  | |- wpn (rec ?q) ?i _ => eapply wpn_weak; [apply (Hr q i i); [lia|cbn [pre]; try lia; try apply D_nil]|intros o ? [? ?]]
  end.
Ltac tail q a := eapply wpn_weak; [apply (Hr q a); [lia|cbn [pre]]|intros ? ? [? ?]; split; [lia|assumption]].
Ltac S1 :=
  match goal with
  | |- wpn (pbind _ _) _ _ => apply wpn_bind
  | |- wpn (ret _) _ _ => apply wpn_ret
  | |- wpn (ok_ _) _ _ => apply wpn_ret
  | |- wpn fresh _ _ => apply wpn_fresh
  | |- wpn (crash _) _ _ => apply wpn_crash
  | |- wpn (mkMisc _) _ _ => apply wpn_misc
  | |- wpn (withSync _ _) _ _ => apply wpn_withSync
  | |- wpn (withState _ _ _) _ _ => apply wpn_withState
  | |- wpn _ _ _ => apply wpn_keeps; [solve [auto with keeps nocore]|intros ?]
  | |- wpn (match ?x with _ => _ end) _ _ => destruct x
  | |- wpn (let _ := _ in _) _ _ => cbv zeta
  | |- wpn (rec ?q) ?i (post ?i ?i) => solve [apply (Hr q i i); [lia|cbn [pre]; first [lia|apply D_nil]]]
  | |- post _ _ None _ => split; [lia|apply D_nil]
  end.
Ltac fin := split; [lia|cbn [optlist]].

Lemma s_paren i : wpn (parseExprParen src rec) i (post i i).
Proof.
  unfold parseExprParen. repeat S1. RQ o. pose proof (D_misc i (trange a)) as Dm. repeat S1.
  all: try (fin; mk).
  all: pose proof (D_misc j (trange t)) as Dn; fin; mk.
Qed.

Lemma s_listLoop tok l a i : a <= i -> D a i l -> wpn (parseExprListLoop src rec tok l) i (post a i).
Proof.
  intros La Dl. unfold parseExprListLoop. repeat S1; try (fin; mk). RQ o. destruct o as [n|]; [|repeat S1; fin; mk].
  tail (QListLoop tok (l ++ [n])) a. eapply D_app; eauto; lia.
Qed.
Lemma s_list i : wpn (parseExprList rec) i (post i i).
Proof. unfold parseExprList. repeat S1. Qed.
Lemma s_simple i : wpn (parseExprSimple rec) i (post i i).
Proof.
  unfold parseExprSimple. repeat S1.
  all: try (fin; mk).
  - pose proof (D_ident i (trange a) (tview a)) as Di. fin. mk.
  - fin. assert (Dp : D i (S i) [NParts i (trange a) (mergeFragments [inl (tview a)])]) by mk. mk.
Qed.
Lemma s_interp i : wpn (parseInterpolation src rec) i (post i i).
Proof. unfold parseInterpolation. repeat S1. RQ o. repeat S1; fin; mk. Qed.
Lemma interps_snoc l x : interps (l ++ [inl x]) = interps l.
Proof. unfold interps. rewrite flat_map_app. cbn. now rewrite app_nil_r. Qed.
Lemma interps_snoc_r l n : interps (l ++ [inr n]) = interps l ++ [n].
Proof. unfold interps. now rewrite flat_map_app. Qed.
Lemma s_pathLoop tok l a i : a <= i -> D a i (interps l) -> wpn (parseExprPathLoop rec tok l) i (post a i).
Proof.
  intros La Dl. unfold parseExprPathLoop. repeat S1.
  - RQ o. destruct o as [n|]; cbn [optlist] in *.
    + tail (QPathLoop tok ((l ++ [inl (tview a0)]) ++ [inr n])) a. rewrite interps_snoc_r, interps_snoc. eapply D_app; eauto; lia.
    + tail (QPathLoop tok (l ++ [inl (tview a0)])) a. rewrite interps_snoc. DL.
  - fin. rewrite <- (interps_snoc l (tview a0)) in Dl.
    assert (Dp : forall r, D a (S i) [NParts i r (mergeFragments (l ++ [inl (tview a0)]))]) by (intros r; mk). specialize (Dp (mkRange (lcur (trange tok)) (rcur (trange a0)))). mk.
Qed.
Lemma s_path i : wpn (parseExprPath src rec) i (post i i).
Proof. unfold parseExprPath. repeat S1. Qed.
Lemma s_parts c l a i : a <= i -> D a i (interps l) -> wpn (parseStringParts rec c l) i (post a i).
Proof.
  intros La Dl. unfold parseStringParts. apply wpn_bind, wpn_keeps; [K|]. intros tok.
  assert (Fin : wpn (do! assertLast in let! r := toLast c in let! i0 := fresh in ok_ (NParts i0 r (mergeFragments l))) i (post a i)).
  { repeat S1. fin. mk. }
  destruct (tk tok); try exact Fin; clear Fin.
  all: lazymatch goal with
  | |- wpn (pbind (rec QInterp) _) _ _ =>
      apply wpn_bind; RQ o; destruct o as [n|]; cbn [optlist] in *;
      [tail (QParts c (l ++ [inr n])) a; rewrite interps_snoc_r; eapply D_app; eauto; lia|tail (QParts c l) a; DL]
  | |- context [unescape _] =>
      apply wpn_bind, wpn_keeps; [K|]; intros _; destruct (unescape (tview tok)) as [|u us];
      [tail (QParts c l) a; DL|tail (QParts c (l ++ [inl (u :: us)])) a; rewrite interps_snoc; DL]
  | |- _ => repeat S1; tail (QParts c (l ++ [inl (tview tok)])) a; rewrite interps_snoc; DL
  end.
Qed.
Lemma s_string c i : wpn (parseString src rec c) i (post i i).
Proof.
  unfold parseString. do 6 S1. apply wpn_withSync. repeat S1. RQ o. repeat S1; fin; mk.
Qed.
Lemma s_select i : wpn (parseExprSelect rec) i (post i i).
Proof.
  unfold parseExprSelect. repeat S1. RQ o. destruct o as [ex|]; [|repeat S1]. cbn [optlist] in *. repeat S1.
  - fin. DL.
  - RQ o. pose proof (fun x y => D_dot j (trange a0) x y) as Dd0. specialize (Dd0 (nid ex) None).
    apply wpn_bind, wpn_keeps; [destruct o; K|]. intros _. repeat S1; [fin; mk|]. RQ o2.
    apply wpn_bind, wpn_keeps; [destruct o2; K|]. intros _. repeat S1. fin. mk.
Qed.

Lemma s_appLoop f l a i : a <= i -> D a i (f :: l) -> wpn (parseExprAppLoop rec f l) i (post a i).
Proof.
  intros La Dl. unfold parseExprAppLoop. apply wpn_bind. RQ o. destruct o as [n|]; cbn [optlist] in *.
  - tail (QAppLoop f (l ++ [n])) a. change (f :: l ++ [n]) with ((f :: l) ++ [n]). eapply D_app; eauto; lia.
  - destruct l as [|x l].
    + apply wpn_ret. fin. DL.
    + change (f :: x :: l) with ([f] ++ x :: l) in Dl. repeat S1. fin.
      apply D_mk; [reflexivity|lia|norm; eapply D_all; eauto|cbn [lrest]; norm; eapply D_pairs; eauto|exact I|norm; apply Dl].
Qed.
Lemma s_app i : wpn (parseExprApp rec) i (post i i).
Proof.
  unfold parseExprApp. apply wpn_bind. RQ o. destruct o as [n|]; [|repeat S1]. cbn [optlist] in *. destruct (maybeLambda n).
  - tail (QAppLoop n []) i. DL.
  - apply wpn_ret. fin. DL.
Qed.
Lemma s_expr i : wpn (parseExpr rec) i (post i i).
Proof. unfold parseExpr. repeat S1. Qed.
Lemma s_if i : wpn (parseExprIf src rec) i (post i i).
Proof.
  unfold parseExprIf. repeat S1. RQ c. apply wpn_bind, wpn_keeps; [destruct c; K|]. intros stop. repeat S1; try (fin; mk).
  RQ ot. apply wpn_bind, wpn_keeps; [destruct ot; K|]. intros stop. repeat S1; try (fin; mk).
  RQ e. apply wpn_bind, wpn_keeps; [destruct e; K|]. intros _. repeat S1. fin. mk.
Qed.
Lemma s_assert i : wpn (parseExprAssert src rec) i (post i i).
Proof.
  unfold parseExprAssert. repeat S1. RQ c. apply wpn_bind, wpn_keeps; [destruct c; K|]. intros stop. repeat S1; try (fin; mk).
  RQ v. repeat S1. fin. mk.
Qed.
Lemma s_with i : wpn (parseExprWith src rec) i (post i i).
Proof.
  unfold parseExprWith. repeat S1. RQ w. pose proof (D_misc i (trange a0)) as Dk. repeat S1.
  - match goal with |- wpn _ _ _ => idtac end. pose proof (D_misc j (trange t)) as Ds. RQ e. repeat S1. fin.
    apply D_mk; [reflexivity|lia|norm; FL|cbn [lrest]; split; [eexists; eexists; reflexivity|norm; PR]|exact I|norm; PT].
  - fin. apply D_mk; [reflexivity|lia|norm; FL|cbn [lrest]; split; [eexists; eexists; reflexivity|norm; PR]|exact I|norm; PT].
Qed.
Lemma s_let i : wpn (parseExprLet src rec) i (post i i).
Proof.
  unfold parseExprLet. repeat S1. pose proof (D_misc i (trange a0)) as Dk. RQ bd. apply wpn_bind.
  assert (Fin : forall ao k (Q : nat -> Prop), i < k -> D i k (optlist ao) -> (forall x, ao = Some x -> attrs_rec x = Some (NMisc i (trange a0))) ->
    wpn (let! expin := expect src tok_kw_in in
      match expin with
      | None => let! r := toLast a in let! i0 := fresh in ok_ (NLet i0 r (NMisc i (trange a0)) None None ao)
      | Some T =>
          let! kwin := mkMisc (trange T) in do! consume in let! e := rec QExpr in do! orNull e "let ... in" in
          let! r := toLast a in let! i0 := fresh in ok_ (NLet i0 r (NMisc i (trange a0)) (Some kwin) e ao)
      end) k (post i i)).
  { intros ao k _ Lk Da Ra. repeat S1.
    - pose proof (D_misc k (trange t)) as Di. RQ e. repeat S1. fin.
      apply D_mk; [reflexivity|lia|norm; FL| |exact I|norm; PT].
      cbn [lrest]. split; [eexists; eexists; reflexivity|]. split; [exact Ra|]. split; PR.
    - fin. apply D_mk; [reflexivity|lia|norm; FL| |exact I|norm; PT].
      cbn [lrest optlist]. split; [eexists; eexists; reflexivity|]. split; [exact Ra|]. split; PR. }
  destruct bd as [bn|]; cbn [optlist] in *.
  - apply wpn_bind. eapply (onExprAttrs_ok i); [lia|eapply D_app; eauto; lia|]. intros st dy k L Da. apply wpn_ret.
    apply (Fin _ _ (fun _ => True)); [lia|exact Da|]. intros x E. injection E as <-. reflexivity.
  - apply wpn_ret. apply (Fin _ _ (fun _ => True)); [lia|apply D_nil|discriminate].
Qed.
Lemma s_legacyLet i : wpn (parseExprLegacyLet src rec) i (post i i).
Proof.
  unfold parseExprLegacyLet. apply wpn_bind, wpn_keeps; [K|]. intros lc. apply wpn_bind, wpn_keeps; [K|]. intros tl.
  apply wpn_bind, wpn_keeps; [K|]. intros _. apply wpn_bind, wpn_misc. pose proof (D_misc i (trange tl)) as Dk.
  apply wpn_bind, wpn_keeps; [K|]. intros _. apply wpn_withSync. apply wpn_bind, wpn_keeps; [K|]. intros tc.
  apply wpn_bind, wpn_keeps; [K|]. intros er. apply wpn_bind, wpn_keeps; [destruct er; K|]. intros _.
  apply wpn_bind, wpn_keeps; [K|]. intros _. apply wpn_bind. RQ bd.
  apply wpn_bind, wpn_keeps; [K|]. intros lr. apply wpn_bind, wpn_keeps; [K|]. intros er2. apply wpn_bind, wpn_keeps; [destruct er2; K|]. intros rr.
  apply wpn_bind, wpn_keeps; [K|]. intros ar. apply wpn_bind.
  eapply (onExprAttrs_ok i); [lia|cbn [optlist]; eapply D_app; eauto; lia|]. intros st dy k L Da.
  apply wpn_bind, wpn_keeps; [K|]. intros full. cbv zeta. apply wpn_bind, wpn_keeps; [K|]. intros _.
  apply wpn_bind, wpn_keeps; [cbn [attrs_sema sa_static]; K|]. intros _. repeat S1. fin.
  apply D_mk; [reflexivity|lia|norm; FL| |exact I|norm; PT]. cbn [lrest]. split; [eexists; eexists; reflexivity|].
  intros x E. injection E as <-. reflexivity.
Qed.
Lemma s_opLoop bp p a i : a <= i -> D a i [p] -> wpn (parseExprOpLoop rec bp p) i (post a i).
Proof.
  intros La Dp. unfold parseExprOpLoop. apply wpn_bind, wpn_keeps; [K|]. intros tok.
  assert (Bin : forall rbp what, wpn (do! consume in do! assertLast in let! io := fresh in let! rhs := rec (QOp rbp) in
    match rhs with
    | None => do! diagNullExpr what in rec (QOpLoop bp p)
    | Some rn => let! i := fresh in
        rec (QOpLoop bp (NBinOp i (mkRange (nl p) (nr rn)) (NOp io (trange tok) (tk tok)) (Some p) (Some rn)))
    end) i (post a i)).
  { intros rbp what. repeat S1. RQ o. pose proof (D_op i (trange tok) (tk tok)) as Do. destruct o as [rn|]; cbn [optlist] in *; repeat S1.
    - tail (QOpLoop bp (NBinOp j (mkRange (nl p) (nr rn)) (NOp i (trange tok) (tk tok)) (Some p) (Some rn))) a. mk.
    - tail (QOpLoop bp p) a. DL. }
  cbv zeta. destruct (isBinOp (tk tok)).
  - destruct (getBP (tk tok)) as [[lbp rbp]|]; [|apply wpn_crash]. destruct (Nat.ltb lbp bp); [apply wpn_ret; fin; DL|].
    apply wpn_bind, wpn_keeps; [K|]. intros _. apply Bin.
  - destruct (tk tok) eqn:Ek; try (apply wpn_ret; fin; DL); rewrite <- Ek in *.
    all: lazymatch goal with
    | |- wpn (pbind consume _) _ _ =>
        apply wpn_bind, wpn_keeps; [K|]; intros _; apply wpn_bind, wpn_keeps; [K|]; intros _; apply wpn_bind, wpn_fresh; apply wpn_bind; RQ o;
        pose proof (D_op i (trange tok) (tk tok)) as Do; apply wpn_bind, wpn_keeps; [K|]; intros r; apply wpn_bind, wpn_fresh;
        lazymatch goal with |- wpn (rec ?q) _ _ => tail q a end; mk
    | |- _ => apply wpn_bind, wpn_keeps; [K|]; intros f; apply wpn_bind, wpn_keeps; [K|]; intros _; apply Bin
    end.
Qed.
Lemma s_op bp i : wpn (parseExprOpBP rec bp) i (post i i).
Proof.
  unfold parseExprOpBP. apply wpn_bind, wpn_keeps; [K|]. intros lc. apply wpn_bind, wpn_keeps; [K|]. intros tok. apply wpn_bind.
  assert (Rest : forall o j, i <= j -> D i j (optlist o) -> wpn match o with None => ret None | Some p => rec (QOpLoop bp p) end j (post i i)).
  { intros [p|] j L Dp; cbn [optlist] in *; [|repeat S1]. tail (QOpLoop bp p) i. exact Dp. }
  assert (Un : wpn (do! consume in do! assertLast in let! io := fresh in let! e := rec (QOp (getUnaryBP (tk tok))) in
     do! (match e with
          | Some _ => ret tt
          | None => match tk tok with tok_op_not => diagNullExpr "unary operator !" | _ => diagNullExpr "unary operator -" end
          end) in
     let! r := toLast lc in let! i := fresh in ok_ (NUnary i r (NOp io (trange tok) (tk tok)) e)) i
     (fun o j => wpn match o with None => ret None | Some p => rec (QOpLoop bp p) end j (post i i))).
  { repeat S1. RQ e. pose proof (D_op i (trange tok) (tk tok)) as Do. apply wpn_bind, wpn_keeps; [destruct e; K|]. intros _.
    apply wpn_bind, wpn_keeps; [K|]. intros r. apply wpn_bind, wpn_fresh. apply wpn_ret. refine (Rest (Some _) _ _ _); [lia|]. cbn [optlist]. mk. }
  destruct (tk tok) eqn:Ek; try (rewrite <- Ek; exact Un); try (RQ o; now apply Rest).
  all: rewrite <- Ek in Un |- *; exact Un.
Qed.
Lemma s_attrName i : wpn (parseAttrName rec) i (post i i).
Proof.
  unfold parseAttrName. apply wpn_bind, wpn_keeps; [K|]. intros tok. cbv zeta.
  assert (Id : wpn (do! consume in let! ii := fresh in let! i := fresh in
    ok_ (NAttrName i (trange tok) (NIdent ii (trange tok) (tview tok)))) i (post i i)).
  { repeat S1. pose proof (D_ident i (trange tok) (tview tok)) as Di. fin. mk. }
  destruct (tk tok); try exact Id; try (repeat S1; fail).
  all: lazymatch goal with
  | |- wpn (pbind (rec _) _) _ _ => apply wpn_bind; RQ o; destruct o as [n|]; cbn [optlist] in *; repeat S1; fin; mk
  | |- wpn (pbind (emit _) _) _ _ => apply wpn_bind, wpn_keeps; [K|]; intros _; exact Id
  | |- _ => repeat S1
  end.
Qed.
Lemma D_insert a i l m n j : a <= i -> D a i (l ++ m) -> D i j [n] -> i <= j -> D a j ((l ++ [n]) ++ m).
Proof.
  intros La H K L. pose proof (D_app_l _ _ _ _ H) as H1. pose proof (D_app_r _ _ _ _ H) as H2. pose proof (D_cross _ _ _ _ H) as H3.
  destruct H1 as (F1 & P1 & T1), H2 as (F2 & P2 & T2), K as (F3 & P3 & T3).
  assert (A : forall x, In x l \/ In x m -> wdisj x n).
  { intros x I z Wx Wn. inversion F3 as [|? ? [O3 _] _]; subst. apply O3 in Wn. rewrite Forall_forall in F1, F2.
    destruct I as [I|I]; [apply (F1 _ I) in Wx|apply (F2 _ I) in Wx]; unfold iv in *; lia. }
  split; [|split].
  - repeat (apply Forall_app; split).
    + eapply Forall_impl; [|exact F1]. intros x. apply ok_weak. unfold iv. lia.
    + eapply Forall_impl; [|exact F3]. intros x. apply ok_weak. unfold iv. lia.
    + eapply Forall_impl; [|exact F2]. intros x. apply ok_weak. unfold iv. lia.
  - apply pairs_app; auto.
    + apply pairs_app; auto. intros x y I [<-|[]]. auto.
    + apply aparts_app_l; auto. intros x y [<-|[]] I. apply wdisj_sym. auto.
  - repeat (apply Forall_app; split); auto.
Qed.
Lemma s_attrPathLoop c ns ds pv a i : a <= i -> D a i (ns ++ ds) -> wpn (parseAttrPathLoop rec c ns ds pv) i (post a i).
Proof.
  intros La Dl. unfold parseAttrPathLoop. apply wpn_bind, wpn_keeps; [K|]. intros tok. destruct (tkind_beq (tk tok) tok_dot).
  - apply wpn_bind, wpn_keeps; [K|]. intros _. apply wpn_bind. RQ o. apply wpn_bind, wpn_fresh. cbv zeta. destruct o as [n|]; cbn [optlist] in *.
    + pose proof (D_dot j (trange tok) pv (Some (nid n))) as Dd.
      tail (QAttrPathLoop c (ns ++ [n]) (ds ++ [NDot j (trange tok) pv (Some (nid n))]) (nid n)) a.
      rewrite app_assoc. eapply D_app; [eapply (D_insert a i); eauto|exact Dd|lia..].
    + pose proof (D_dot j (trange tok) pv None) as Dd. repeat S1.
      tail (QAttrPathLoop c ns (ds ++ [NDot j (trange tok) pv None]) pv) a. rewrite app_assoc. eapply D_app; [eauto|exact Dd|lia..].
  - repeat S1. fin. mk.
Qed.
Lemma s_attrPath i : wpn (parseAttrPath rec) i (post i i).
Proof.
  unfold parseAttrPath. apply wpn_bind. RQ o. destruct o as [n|]; cbn [optlist] in *; repeat S1.
  tail (QAttrPathLoop (nl n) [n] [] (nid n)) i. assumption.
Qed.
Lemma s_binding i : wpn (parseBinding src rec) i (post i i).
Proof.
  unfold parseBinding. apply wpn_bind. RQ o. destruct o as [p|]; cbn [optlist] in *; repeat S1; [|fin; mk].
  RQ e. pose proof (D_misc j (trange t)) as De. apply wpn_bind, wpn_keeps; [K|]. intros _. apply wpn_bind, wpn_keeps; [K|]. intros k.
  apply wpn_bind, wpn_keeps; [K|]. intros _. repeat S1. fin. mk.
Qed.
Lemma s_inheritLoop tok e ns a i : a <= i -> D a i (ns ++ optlist e) -> wpn (parseInheritLoop src rec tok e ns) i (post a i).
Proof.
  intros La Dl. unfold parseInheritLoop. apply wpn_bind. RQ o. destruct o as [n|]; cbn [optlist] in *.
  - tail (QInheritLoop tok e (ns ++ [n])) a. eapply (D_insert a i); eauto.
  - apply wpn_bind, wpn_keeps; [K|]. intros er. apply wpn_bind, wpn_keeps; [destruct er; K|]. intros _.
    apply wpn_bind, wpn_keeps; [destruct ns, er; K|]. intros _. repeat S1. fin. mk.
Qed.
Lemma s_inherit i : wpn (parseInherit src rec) i (post i i).
Proof.
  unfold parseInherit. apply wpn_bind, wpn_keeps; [K|]. intros tok. destruct (negb _); [repeat S1|].
  apply wpn_bind, wpn_keeps; [K|]. intros _. do 4 apply wpn_withSync. apply wpn_bind, wpn_keeps; [K|]. intros _.
  apply wpn_bind, wpn_keeps; [K|]. intros t. apply wpn_bind. destruct (tkind_beq (tk t) tok_l_paren).
  - apply wpn_bind, wpn_keeps; [K|]. intros _. apply wpn_bind. RQ e. apply wpn_bind, wpn_keeps; [K|]. intros _.
    apply wpn_bind, wpn_keeps; [K|]. intros er. apply wpn_bind, wpn_keeps; [destruct er; K|]. intros _. apply wpn_ret.
    tail (QInheritLoop tok e []) i. assumption.
  - apply wpn_ret. tail (QInheritLoop tok None []) i. apply D_nil.
Qed.
Lemma s_bindsLoop c l a i : a <= i -> D a i l -> wpn (parseBindsLoop src rec c l) i (post a i).
Proof.
  intros La Dl. unfold parseBindsLoop. apply wpn_bind. RQ o. destruct o as [n|]; cbn [optlist] in *.
  - tail (QBindsLoop c (l ++ [n])) a. eapply D_app; eauto; lia.
  - apply wpn_bind. RQ o. destruct o as [n|]; cbn [optlist] in *.
    + tail (QBindsLoop c (l ++ [n])) a. eapply D_app; eauto; lia.
    + apply wpn_bind, wpn_keeps; [K|]. intros rm. destruct rm; [tail (QBindsLoop c l) a; DL|]. destruct l as [|x l]; repeat S1. fin. mk.
Qed.
Lemma s_binds i : wpn (parseBinds rec) i (post i i).
Proof. unfold parseBinds. repeat S1. Qed.
Lemma s_attrs i : wpn (parseExprAttrs src rec) i (post i i).
Proof.
  unfold parseExprAttrs. apply wpn_withSync. apply wpn_bind, wpn_keeps; [K|]. intros first. apply wpn_bind.
  assert (Fin : forall rc j, i <= j -> D i j (optlist rc) ->
    wpn (let! er := expect src tok_l_curly in
    let! matcher := (match er with Some T => do! consume in ret T | None => ret first end) in
    do! assertLast in let! binds := rec QBinds in let! er2 := expect src tok_r_curly in
    do! (match er2 with Some _ => consume | None => noteMatch (trange matcher) (tk matcher) end) in
    let! r := toLast (lcur (trange first)) in let! a := onExprAttrs r binds rc in ok_ a) j (post i i)).
  { intros rc j L Dr. apply wpn_bind, wpn_keeps; [K|]. intros er. apply wpn_bind, wpn_keeps; [destruct er; K|]. intros mt.
    apply wpn_bind, wpn_keeps; [K|]. intros _. apply wpn_bind. RQ bd. apply wpn_bind, wpn_keeps; [K|]. intros er2.
    apply wpn_bind, wpn_keeps; [destruct er2; K|]. intros _. apply wpn_bind, wpn_keeps; [K|]. intros r. apply wpn_bind.
    eapply (onExprAttrs_ok i); [lia|eapply D_app; eauto; lia|]. intros st dy k L2 Da. apply wpn_ret. fin. exact Da. }
  destruct (tkind_beq (tk first) tok_kw_rec).
  - repeat apply wpn_bind. apply wpn_keeps; [K|]. intros _. apply wpn_bind, wpn_misc, wpn_ret. apply Fin; [lia|]. apply D_misc.
  - apply wpn_ret. apply Fin; [lia|]. apply D_nil.
Qed.
Lemma s_formal i : wpn (parseFormal rec) i (post i i).
Proof.
  unfold parseFormal. apply wpn_bind, wpn_keeps; [K|]. intros lc. apply wpn_bind, wpn_keeps; [K|]. intros t0. apply wpn_bind.
  assert (Fin : forall comma j, i <= j -> D i j (optlist comma) ->
    wpn (let! t := peek 0 in
      match tk t with
      | tok_id =>
          do! consume in do! assertLast in let! ii := fresh in let ident := NIdent ii (trange t) (tview t) in
          let! k := peekk 0 in
          if negb (tkind_beq k tok_question) then
            let! r := toLast lc in let! i := fresh in ok_ (NFormal i r comma (Some ident) None None)
          else
            do! consume in let! d := rec QExpr in do! orNull d "default value" in
            let! r := toLast lc in let! i := fresh in ok_ (NFormal i r comma (Some ident) d None)
      | tok_ellipsis =>
          do! consume in do! assertLast in let! ell := mkMisc (trange t) in
          let! r := toLast lc in let! i := fresh in ok_ (NFormal i r comma None None (Some ell))
      | _ =>
          match comma with
          | Some _ => do! assertLast in let! r := toLast lc in let! i := fresh in ok_ (NFormal i r comma None None None)
          | None => ret None
          end
      end) j (post i i)).
  { intros comma j L Dc. apply wpn_bind, wpn_keeps; [K|]. intros t.
    assert (Ot : wpn match comma with
          | Some _ => do! assertLast in let! r := toLast lc in let! i := fresh in ok_ (NFormal i r comma None None None)
          | None => ret None
          end j (post i i)).
    { destruct comma; repeat S1. fin. mk. }
    destruct (tk t); try exact Ot; clear Ot.
    all: lazymatch goal with
    | |- context [mkMisc] => repeat S1; pose proof (D_misc j (trange t)) as Dm; fin; mk
    | |- _ => pose proof (D_ident j (trange t) (tview t)) as Dm; repeat S1; [fin; mk|]; RQ d; repeat S1; fin; mk
    end. }
  destruct (tkind_beq (tk t0) tok_comma).
  - repeat apply wpn_bind. apply wpn_keeps; [K|]. intros _. apply wpn_bind, wpn_misc, wpn_ret. refine (Fin (Some _) _ _ _); [lia|]. apply D_misc.
  - apply wpn_ret. refine (Fin None _ _ _); [lia|]. apply D_nil.
Qed.
Lemma s_formalsLoop tok l a i : a <= i -> D a i l -> wpn (parseFormalsLoop src rec tok l) i (post a i).
Proof.
  intros La Dl. unfold parseFormalsLoop. cbv zeta.
  assert (Fin : forall j, i <= j -> wpn (let! er := expect src tok_r_curly in
    do! (match er with Some _ => consume | None => noteMatch (trange tok) tok_l_curly end) in
    let! r := toLast (lcur (trange tok)) in let! f := onFormals src r l in ok_ f) j (post a i)).
  { intros j L. apply wpn_bind, wpn_keeps; [K|]. intros er. apply wpn_bind, wpn_keeps; [destruct er; K|]. intros _. apply wpn_bind, wpn_keeps; [K|]. intros r.
    unfold onFormals. repeat S1. fin. mk. }
  apply wpn_bind, wpn_keeps; [K|]. intros k. destruct (tkind_beq k tok_r_curly); [now apply Fin|]. apply wpn_bind. RQ o.
  destruct o as [n|]; cbn [optlist] in *.
  - tail (QFormalsLoop tok (l ++ [n])) a. eapply D_app; eauto; lia.
  - apply wpn_bind, wpn_keeps; [K|]. intros rm. destruct rm; [tail (QFormalsLoop tok l) a; DL|]. now apply Fin.
Qed.
Lemma s_formals i : wpn (parseFormals src rec) i (post i i).
Proof. unfold parseFormals. repeat S1. Qed.
Lemma s_onLambdaArg a r idn f i (Q : node -> nat -> Prop) : a <= i -> D a i (optlist idn ++ optlist f) ->
  (D a (S i) [NLambdaArg i r idn f] -> Q (NLambdaArg i r idn f) (S i)) -> wpn (onLambdaArg r idn f) i Q.
Proof.
  intros La Dd H. unfold onLambdaArg. apply wpn_bind, wpn_keeps; [K|]. intros _. repeat S1. apply H. mk.
Qed.
Lemma s_lambdaArg i : wpn (parseLambdaArg src rec) i (post i i).
Proof.
  unfold parseLambdaArg. apply wpn_bind, wpn_keeps; [K|]. intros lc. apply wpn_bind, wpn_keeps; [K|]. intros t. destruct (tkind_beq (tk t) tok_id).
  - apply wpn_bind, wpn_keeps; [K|]. intros _. apply wpn_bind, wpn_keeps; [K|]. intros _. apply wpn_bind, wpn_fresh. cbv zeta.
    pose proof (D_ident i (trange t) (tview t)) as Di. apply wpn_bind, wpn_keeps; [K|]. intros k. destruct (negb _).
    + apply wpn_bind, wpn_keeps; [K|]. intros r. apply wpn_bind. eapply (s_onLambdaArg i); [lia|exact Di|]. intros Da. apply wpn_ret. fin. exact Da.
    + apply wpn_bind, wpn_keeps; [K|]. intros _. apply wpn_bind. RQ f. apply wpn_bind, wpn_keeps; [destruct f; K|]. intros _.
      apply wpn_bind, wpn_keeps; [K|]. intros r. apply wpn_bind. eapply (s_onLambdaArg i); [lia|cbn [optlist]; eapply D_app; eauto; lia|]. intros Da. apply wpn_ret. fin. exact Da.
  - apply wpn_bind. RQ f. destruct f as [fm|]; cbn [optlist] in *; [|repeat S1]. apply wpn_bind, wpn_keeps; [K|]. intros _.
    apply wpn_bind, wpn_keeps; [K|]. intros ta. destruct (negb _).
    + apply wpn_bind, wpn_keeps; [K|]. intros r. apply wpn_bind. eapply (s_onLambdaArg i); [lia|cbn [optlist app]; eassumption|]. intros Da. apply wpn_ret. fin. exact Da.
    + apply wpn_bind, wpn_keeps; [K|]. intros _. apply wpn_bind, wpn_keeps; [K|]. intros [T|].
      * apply wpn_bind, wpn_keeps; [K|]. intros _. apply wpn_bind, wpn_fresh. pose proof (D_ident j (trange T) (tview T)) as Di.
        apply wpn_bind, wpn_keeps; [K|]. intros r. apply wpn_bind. eapply (s_onLambdaArg i); [lia|cbn [optlist]; eapply D_app; eauto; lia|]. intros Da. apply wpn_ret. fin. exact Da.
      * apply wpn_bind, wpn_keeps; [K|]. intros _. apply wpn_bind, wpn_keeps; [K|]. intros r. apply wpn_bind.
        eapply (s_onLambdaArg i); [lia|cbn [optlist app]; eassumption|]. intros Da. apply wpn_ret. fin. exact Da.
Qed.
Lemma s_lambda i : wpn (parseExprLambda src rec) i (post i i).
Proof.
  unfold parseExprLambda. apply wpn_bind, wpn_keeps; [K|]. intros lc. apply wpn_bind. RQ o. apply wpn_bind, wpn_keeps; [K|]. intros _.
  destruct o as [n|]; cbn [optlist] in *; [|repeat S1]. apply wpn_bind, wpn_keeps; [K|]. intros er. apply wpn_bind, wpn_keeps; [destruct er; K|]. intros _.
  apply wpn_bind. RQ bd. repeat S1. fin. mk.
Qed.

Lemma post_weak {m : P (option node)} a i : a <= i -> wpn m i (post i i) -> wpn m i (post a i).
Proof. intros L H. eapply wpn_weak; [exact H|]. intros o j [Lj Dj]. split; auto. DL. Qed.
Lemma s_step q a i : a <= i -> pre q a i -> wpn (step src rec q) i (post a i).
Proof.
  intros La Pq. destruct q; cbn [step pre] in *.
  all: first [now apply s_opLoop|now apply s_appLoop|now apply s_listLoop|now apply s_parts|now apply s_pathLoop|now apply s_attrPathLoop
    |now apply s_inheritLoop|now apply s_bindsLoop|now apply s_formalsLoop|apply post_weak; [exact La|]].
  all: first [apply s_expr|apply s_op|apply s_app|apply s_select|apply s_simple|apply s_paren|apply s_list|apply s_string|apply s_path
    |apply s_interp|apply s_attrName|apply s_attrPath|apply s_binding|apply s_inherit|apply s_binds|apply s_attrs|apply s_if|apply s_assert
    |apply s_let|apply s_legacyLet|apply s_with|apply s_formal|apply s_formals|apply s_lambdaArg|apply s_lambda].
Qed.
End Step.

Lemma run_D src fuel : forall q a i, a <= i -> pre q a i -> wpn (run src fuel q) i (post a i).
Proof.
  induction fuel as [|f IH]; intros q a i L Pq; cbn [run]; [intros s x s' _ E; discriminate|]. now apply s_step.
Qed.
Lemma parse_D src root ds : parse src = Ok (Some root, ds) -> exists hi, D 0 hi [root].
Proof.
  unfold parse, parse_st. intros H.
  destruct ((let! e := run src (parse_fuel src) QExpr in let! t := peek 0 in
     do! (if tkind_beq (tk t) tok_eof then ret tt else emit (diag0 DK_UnexpectedText (trange t))) in ret e) (pinit src)) as [[n s]| |] eqn:E; try discriminate.
  injection H as -> _. revert E.
  assert (W : wpn (let! e := run src (parse_fuel src) QExpr in let! t := peek 0 in
     do! (if tkind_beq (tk t) tok_eof then ret tt else emit (diag0 DK_UnexpectedText (trange t))) in ret e) 0 (post 0 0)).
  { apply wpn_bind. eapply wpn_weak; [apply (run_D src _ QExpr 0 0); cbn [pre]; lia|]. intros o j Hp.
    apply wpn_bind, wpn_keeps; [K|]. intros t. apply wpn_bind, wpn_keeps; [K|]. intros _. apply wpn_ret. exact Hp. }
  intros E. destruct (W (pinit src) _ _ eq_refl E) as [_ Dd]. exists (pnid s). exact Dd.
Qed.
