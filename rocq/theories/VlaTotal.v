(** The variable analysis runs to its end on every parsed document. *)
From Coq Require Import Sorting.Sorted.
From Verif Require Import Base Diag LexModel AstModel SemaModel PSupModel ParseModel ParseSpec ParseTree ParseProofs ParseFacts VlaModel VlaSpec VlaPost VlaBase VlaProofs VlaDfs IdTree IdProofs DocProofs SemaFacts VlaClean.

Section Total.
Variables (src : bytes) (root : node) (ds : list diag).
Hypothesis HP : parse src = Ok (Some root, ds).
Variable primops : list (bytes * bool).

(** ** states *)
Definition inv (s : vst) : Prop := forall n d, nfind n (v_with s) = Some d -> d < List.length (v_defs s).
Definition ext (s s' : vst) : Prop :=
  (forall d x, nth_error (v_defs s) d = Some x -> exists y, nth_error (v_defs s') d = Some y /\ df_src y = df_src x) /\
  (forall n, nfind n (v_with s) <> None -> nfind n (v_with s') <> None).
Lemma ext_refl s : ext s s.
Proof. split; eauto. Qed.
Lemma ext_trans a c d : ext a c -> ext c d -> ext a d.
Proof.
  intros [A1 A2] [B1 B2]. split; auto. intros i x H. destruct (A1 i x H) as (y & Hy & E). destruct (B1 i y Hy) as (z & Hz & E').
  exists z. split; congruence.
Qed.
Definition T {A} (m : V A) (Q : A -> vst -> Prop) (s : vst) : Prop :=
  inv s -> exists a s', m s = Ok (a, s') /\ ext s s' /\ inv s' /\ Q a s'.
Definition top {A} (a : A) (s : vst) : Prop := True.

Lemma t_ret {A} (a : A) (Q : A -> vst -> Prop) s : Q a s -> T (vret a) Q s.
Proof. intros H I. exists a, s. auto using ext_refl. Qed.
Lemma t_bind {A B} (m : V A) (f : A -> V B) (Q : A -> vst -> Prop) (R : B -> vst -> Prop) s : T m Q s ->
  (forall a s', ext s s' -> Q a s' -> T (f a) (fun x s2 => ext s s2 -> R x s2) s') -> T (vbind m f) R s.
Proof.
  intros H K I. destruct (H I) as (a & s1 & E1 & X1 & I1 & Q1). destruct (K a s1 X1 Q1 I1) as (c & s2 & E2 & X2 & I2 & Q2).
  exists c, s2. unfold vbind. rewrite E1. pose proof (ext_trans _ _ _ X1 X2) as X. auto.
Qed.
Lemma t_mono {A} (m : V A) (Q R : A -> vst -> Prop) s : T m Q s -> (forall a s', ext s s' -> Q a s' -> R a s') -> T m R s.
Proof. intros H K I. destruct (H I) as (a & s' & E & X & I' & Hq). exists a, s'. auto. Qed.
Lemma t_top {A} (m : V A) (Q : A -> vst -> Prop) s : T m Q s -> T m top s.
Proof. intros H. eapply t_mono; eauto. now intros. Qed.
Lemma t_seq {A B} (m : V A) (f : A -> V B) s : T m top s -> (forall a s', ext s s' -> T (f a) top s') -> T (vbind m f) top s.
Proof. intros H K. eapply t_bind; [exact H|]. intros a s' X _. eapply t_mono; [apply K; exact X|]. now intros. Qed.
Lemma t_lift {A B} (r : res A) (a : A) (f : A -> V B) R s : r = Ok a -> T (f a) R s -> T (vbind (vlift r) f) R s.
Proof. intros -> H I. destruct (H I) as (c & s' & E & X). exists c, s'. unfold vbind, vlift. auto. Qed.
Lemma t_same {A} (m : V A) a s s' : m s = Ok (a, s') -> v_defs s' = v_defs s -> v_with s' = v_with s -> T m top s.
Proof.
  intros E D W I. exists a, s'. split; [exact E|]. split; [|split; [|exact Logic.I]].
  - split; [rewrite D; eauto|now rewrite W].
  - intros n d. rewrite D, W. apply I.
Qed.
Lemma t_diag d s : T (vdiag d) top s.
Proof. eapply t_same; reflexivity. Qed.
Lemma t_setToDef n d s : T (setToDef n d) top s.
Proof. eapply t_same; reflexivity. Qed.
Lemma t_insEnv n e s : T (insEnv n e) top s.
Proof. eapply t_same; reflexivity. Qed.
Lemma t_insRes n e s : T (insRes n e) top s.
Proof. eapply t_same; reflexivity. Qed.
Lemma t_insWs n e s : T (insWs n e) top s.
Proof. eapply t_same; reflexivity. Qed.
Lemma t_isLive f s : T (isLive f) top s.
Proof. eapply t_same; reflexivity. Qed.
Lemma t_vfor {A} (f : A -> V unit) l : forall s, (forall x s', In x l -> ext s s' -> T (f x) top s') -> T (vfor f l) top s.
Proof.
  induction l as [|x l IH]; intros s H; [now apply t_ret|]. cbn [vfor].
  apply (t_seq (f x) (fun _ => vfor f l)); [apply H; [now left|apply ext_refl]|]. intros _ s' X. apply IH. intros y s2 I X2.
  apply H; [now right|]. eapply ext_trans; eauto.
Qed.
Lemma addUse_nth u : forall l d i x, nth_error l i = Some x -> exists y, nth_error (addUse d u l) i = Some y /\ df_src y = df_src x.
Proof.
  induction l as [|z l IH]; intros [|d] [|i] x H; cbn in *; try discriminate; eauto.
  injection H as ->. eauto.
Qed.
Lemma addUse_length u : forall l d, List.length (addUse d u l) = List.length l.
Proof. induction l as [|z l IH]; intros [|d]; cbn; auto. Qed.
Lemma t_usedBy d u s : T (usedBy d u) top s.
Proof.
  intros I. eexists. eexists. split; [reflexivity|]. split; [|split; [|exact Logic.I]].
  - split; cbn; [|auto]. intros i x H. now apply addUse_nth.
  - intros n i. cbn. rewrite addUse_length. apply I.
Qed.
Definition src_at (s : vst) (d : nat) (P : dsource -> Prop) : Prop := exists x, nth_error (v_defs s) d = Some x /\ P (df_src x).
Lemma src_ext s s' d P : ext s s' -> src_at s d P -> src_at s' d P.
Proof. intros [X _] (x & H & Hp). destruct (X d x H) as (y & Hy & E). exists y. split; congruence. Qed.
Lemma t_newDef syn so s : T (newDef syn so) (fun d s' => src_at s' d (eq so)) s.
Proof.
  intros I. eexists. eexists. split; [reflexivity|]. split; [|split].
  - split; cbn; [|auto]. intros i x H. exists x. split; [|reflexivity]. rewrite nth_error_app1; [exact H|].
    apply nth_error_Some. congruence.
  - intros n i H. cbn in *. rewrite app_length. apply I in H. cbn. lia.
  - eexists. cbn. rewrite nth_error_app2 by lia. rewrite Nat.sub_diag. cbn. eauto.
Qed.
Lemma t_setWithDef n d s P : src_at s d P -> T (setWithDef n d) (fun _ s' => nfind n (v_with s') <> None) s.
Proof.
  intros (x & Hx & _) I. eexists. eexists. split; [reflexivity|]. split; [|split].
  - split; cbn; eauto. intros k. destruct (Nat.eqb k n); [discriminate|auto].
  - intros k i. cbn. destruct (Nat.eqb k n); [|apply I]. intros [= <-]. apply nth_error_Some. congruence.
  - cbn. rewrite Nat.eqb_refl. discriminate.
Qed.
Lemma t_withDef n s : nfind n (v_with s) <> None -> T (withDef n) (fun d s' => src_at s' d (fun _ => True)) s.
Proof.
  intros H I. unfold withDef. destruct (nfind n (v_with s)) as [d|] eqn:E; [|congruence]. exists d, s. split; [reflexivity|].
  split; [apply ext_refl|]. split; [exact I|]. apply I in E. apply nth_error_Some in E. destruct (nth_error (v_defs s) d) as [x|] eqn:F; [|congruence].
  exists x. auto.
Qed.
Lemma t_getDef {B} d (f : vdef -> V B) R s P : src_at s d P -> (forall x, P (df_src x) -> T (f x) R s) -> T (vbind (getDef d) f) R s.
Proof.
  intros (x & H & Hp) K I. destruct (K x Hp I) as (a & s' & E & X). exists a, s'. unfold vbind, getDef. rewrite H. auto.
Qed.

(** ** frames and environments *)
Definition defs_at (s : vst) (m : list (bytes * nat)) (P : dsource -> Prop) : Prop := forall p, In p m -> src_at s (snd p) P.
Definition fok (s : vst) (f : frame) : Prop := isWith f = true -> nfind (synId f) (v_with s) <> None.
Definition eok (s : vst) (e : env) : Prop :=
  Forall (fok s) e /\ forall x, bfind x primops <> None -> fst (walk x e) <> None.
Lemma defs_ext s s' m P : ext s s' -> defs_at s m P -> defs_at s' m P.
Proof. intros X H p I. eapply src_ext; eauto. Qed.
Lemma eok_ext s s' e : ext s s' -> eok s e -> eok s' e.
Proof.
  intros [_ X] [F H]. split; [|exact H]. eapply Forall_impl; [|exact F]. intros f K W. apply X. now apply K.
Qed.
Lemma walk_more x f e : fst (walk x e) <> None -> fst (walk x (f :: e)) <> None.
Proof. cbn [walk]. destruct (bfind x (fr_defs f)); [discriminate|]. destruct (walk x e) as [[d|] ws]; auto. Qed.
Lemma eok_cons s f e : fok s f -> eok s e -> eok s (f :: e).
Proof. intros F [H1 H2]. split; [now constructor|]. intros x H. apply walk_more. auto. Qed.
Lemma eok_plain s m n e : (forall i r kw semi w x, n <> NWith i r kw semi w x) -> eok s e -> eok s (Frame m (Some n) :: e).
Proof. intros N. apply eok_cons. unfold fok, isWith. cbn. destruct n; try discriminate. now exfalso; eapply N. Qed.
Lemma walk_with x : forall e d ws, walk x e = (d, ws) -> forall f, In f ws -> In f e /\ isWith f = true.
Proof.
  induction e as [|g e IH]; intros d ws H f I; cbn [walk] in H; [injection H as <- <-; destruct I|].
  destruct (bfind x (fr_defs g)); [injection H as <- <-; destruct I|].
  destruct (walk x e) as [d' ws'] eqn:W. injection H as <- <-. destruct (isWith g) eqn:G.
  - destruct I as [<-|I]; [split; [now left|exact G]|]. destruct (IH _ _ eq_refl f I). split; [now right|auto].
  - destruct (IH _ _ eq_refl f I). split; [now right|auto].
Qed.

(** ** the parts *)
Notation within_ := (within root).
Lemma rem n : within_ n -> kind_of n <> NK_InterpolableParts -> mkRemoval (nrange n) = Ok (TEdit (nrange n) []).
Proof. intros W K. apply ParseInv.mkRemoval_ok. exact (in_ne src root ds HP n W K). Qed.
Lemma local_ n : within_ n -> typed n.
Proof. exact (doc_typed src root ds HP n). Qed.

Lemma t_addSimple x e so m s (P : dsource -> Prop) : ~ In x (map fst m) -> P so -> defs_at s m P ->
  T (addSimple x e so m) (fun dm s' => defs_at s' (snd dm) P /\ forall k, In k (map fst (snd dm)) <-> k = x \/ In k (map fst m)) s.
Proof.
  intros N Pso D. unfold addSimple. rewrite (proj2 (bfind_none x m) N).
  eapply t_bind; [apply t_newDef|]. intros d s' X (y & Hy & E). apply t_ret. intros _. cbn [snd]. split.
  - intros p I. apply minsert_keys in I as [->|I]; [exists y; split; [exact Hy|congruence]|]. eapply src_ext; [exact X|]. now apply D.
  - intros k. rewrite !in_map_iff. split.
    + intros (p & <- & I). apply minsert_keys in I as [->|I]; eauto.
    + intros [->|(p & <- & I)]; [exists (x, d)|exists p]; (split; [reflexivity|]); apply minsert_keys; auto.
Qed.
Lemma t_dbAdd x e so ib m s (P : dsource -> Prop) : ~ In x (map fst m) -> P so -> defs_at s m P ->
  T (dbAdd primops x e so ib m) (fun dm s' => defs_at s' (snd dm) P /\ forall k, In k (map fst (snd dm)) <-> k = x \/ In k (map fst m)) s.
Proof.
  intros N Pso D. unfold dbAdd. eapply (t_bind _ _ top).
  { destruct (lookupGlobalPrimOpInfo primops x); try destruct ib; first [now apply t_ret|apply t_diag]. }
  intros _ s1 X1 _. eapply (t_bind _ _ top).
  { destruct (isConstant x); first [now apply t_ret|apply t_diag]. }
  intros _ s2 X2 _. eapply t_mono; [apply (t_addSimple _ _ _ _ _ P N Pso)|now intros].
  eapply defs_ext; [|exact D]. eapply ext_trans; eauto.
Qed.
Lemma last_in {A} (d : A) : forall l, l <> [] -> In (last l d) l.
Proof. induction l as [|x l IH]; [congruence|]. intros _. destruct l; [now left|]. right. apply IH. discriminate. Qed.
Lemma t_lookupVar n e s : eok s e -> T (lookupVar primops n e) top s.
Proof.
  intros [F H]. unfold lookupVar. destruct (walk (varName n) e) as [[d|] ws] eqn:W.
  { apply t_seq; [apply t_usedBy|]. intros. apply t_insRes. }
  destruct ws as [|f0 ws].
  - unfold lookupGlobalPrimOpInfo. destruct (bfind (varName n) primops) as [fl|] eqn:B.
    { exfalso. apply (H (varName n)); [congruence|]. now rewrite W. }
    destruct (bfind (b "__" ++ varName n) primops).
    + eapply t_lift; [apply (ParseInv.mkEdit_ok (point (nl n))); discriminate|].
      apply t_seq; [apply t_diag|]. intros. apply t_insRes.
    + apply t_seq; [apply t_insRes|]. intros. apply t_diag.
  - assert (K : forall f s', In f (f0 :: ws) -> ext s s' -> nfind (synId f) (v_with s') <> None).
    { intros f s' I [_ X]. destruct (walk_with _ _ _ _ W f I) as [Ie Iw]. apply X. rewrite Forall_forall in F. now apply (F f Ie). }
    apply t_seq.
    { apply (t_vfor (fun f => let? d := withDef (synId f) in usedBy d (nid n)) (f0 :: ws)). intros f s' I X.
      apply t_seq; [eapply t_top, t_withDef; now apply K|]. intros. apply t_usedBy. }
    intros _ s1 X1. apply t_seq; [apply t_insWs|]. intros _ s2 X2. apply t_seq; [|intros; apply t_insRes].
    eapply t_top, t_withDef. apply K; [|eapply ext_trans; eauto]. now apply last_in.
Qed.

Definition shown (so : dsource) : Prop := so = DS_LambdaArg \/ exists k, unusedKind so = Ok k.
Lemma t_emit m n s : within_ n -> defs_at s m shown -> T (emitEnvLivenessWarning (Frame m (Some n))) top s.
Proof.
  intros W D. unfold emitEnvLivenessWarning. apply t_vfor. intros p s' I X. cbn [fr_defs] in I.
  eapply t_getDef; [eapply src_ext; [exact X|]; exact (D p I)|]. intros y Y. cbv beta.
  destruct (dsource_beq (df_src y) DS_LambdaArg) eqn:B; [now apply t_ret|].
  destruct (df_syn y) as [syn|]; [|now apply t_ret]. destruct (df_uses y); [|now apply t_ret].
  destruct Y as [Y|[k Y]]; [rewrite Y in B; discriminate|]. eapply t_lift; [exact Y|]. cbn [fr_syn].
  destruct (df_src y); try apply t_diag. destruct (bindingAt (nrange syn) (letBindings n)) as [q|] eqn:E; [|apply t_diag].
  apply find_some in E as [Iq _]. destruct (let_binding src root ds HP n q W Iq) as [Wq Bq].
  eapply t_lift; [apply rem; [exact Wq|destruct Bq; congruence]|]. apply t_diag.
Qed.
Lemma t_checkBuiltins n s : within_ n -> T (checkBuiltins primops n) top s.
Proof.
  intros W. unfold checkBuiltins. destruct n; try now apply t_ret. destruct path as [p|]; [|now apply t_ret]. destruct p; try now apply t_ret.
  destruct names as [|first [|]]; try now apply t_ret. destruct desugared; try now apply t_ret. destruct n; try now apply t_ret.
  match goal with W : within root (NSelect _ _ ?e _ _ _ _) |- _ => set (ex := e) in * end.
  destruct (negb _); [now apply t_ret|]. destruct (staticName first) as [x|]; [|now apply t_ret].
  assert (We : within root ex) by (eapply in_child; [exact W|left; reflexivity]).
  destruct (lookupGlobalPrimOpInfo primops x); [| |]; try now apply t_ret.
  - eapply t_lift; [apply rem; [exact We|discriminate]|]. apply t_seq; [|intros; apply t_diag].
    destruct dot as [dt|]; [|now apply t_ret].
    assert (Wd : within root dt) by (eapply in_field; [exact W|]; unfold fields; rewrite ?in_app_iff; cbn [optlist In]; auto).
    destruct (local_ _ W) as (_ & Td & _). cbn [opt] in Td.
    eapply t_lift; [apply rem; [exact Wd|unfold is_kind in Td; congruence]|]. now apply t_ret.
  - destruct (isBuiltinConstant x); [now apply t_ret|apply t_diag].
Qed.
Lemma inh_ok (a : attribute) : (a_kind a = AK_InheritFrom -> is_kind NK_ExprSelect (a_value a)) -> exists v, checkInheritedFromBuiltin a = Ok v.
Proof.
  unfold checkInheritedFromBuiltin, is_kind. intros K. destruct (a_kind a); eauto. specialize (K eq_refl).
  destruct (a_value a); try discriminate. match goal with K : kind_of (NSelect _ _ ?x _ _ _ _) = _ |- _ => destruct x end; eauto.
Qed.
Lemma entry_inh i r bd rc st dy : within_ (NAttrs i r bd rc st dy) -> forall p, In p st -> exists v, checkInheritedFromBuiltin (snd p) = Ok v.
Proof.
  intros W p I. destruct (local_ _ W) as (_ & _ & F & _). rewrite Forall_forall in F. destruct (F p I) as (_ & _ & _ & K). now apply inh_ok.
Qed.
Lemma t_checkLet i r bd rc st dy s : within_ (NAttrs i r bd rc st dy) -> T (checkLetInheritBuiltins primops st) top s.
Proof.
  intros W. unfold checkLetInheritBuiltins. apply t_vfor. intros p s' I X. destruct (key_in src root ds HP _ _ _ _ _ _ p W I) as [Wk Kk].
  destruct (entry_inh _ _ _ _ _ _ W p I) as [v E]. eapply t_lift; [exact E|]. destruct (negb v); [now apply t_ret|].
  destruct (lookupGlobalPrimOpInfo primops (fst p)); try now apply t_ret.
  eapply t_lift; [apply rem; [exact Wk|intros E0; pose proof (eq_trans (eq_sym Kk) E0); discriminate]|]. apply t_diag.
Qed.
Lemma t_attrDefs so (P : dsource -> Prop) : P so -> forall st m s, NoDup (map fst st) -> (forall x, In x (map fst st) -> ~ In x (map fst m)) ->
  (forall p, In p st -> exists v, checkInheritedFromBuiltin (snd p) = Ok v) -> defs_at s m P ->
  T (attrDefs primops st so m) (fun m' s' => defs_at s' m' P) s.
Proof.
  intros Ps. induction st as [|[x a] st IH]; intros m s N Dj H D; cbn [attrDefs]; [now apply t_ret|].
  destruct (H (x, a) (or_introl eq_refl)) as [v E]. eapply t_lift; [exact E|].
  inversion N as [|? ? Nx N']; subst. eapply t_bind; [apply (t_dbAdd x _ so v m s P); auto; apply Dj; now left|].
  intros dm s1 X1 [D1 K1]. eapply (t_bind _ _ top); [apply t_setToDef|]. intros _ s2 X2 _. eapply t_mono; [apply IH; auto|now intros].
  - intros y I J. apply K1 in J as [->|J]; [now apply Nx|]. apply (Dj y); [now right|exact J].
  - intros p I. apply H. now right.
  - eapply defs_ext; eauto.
Qed.
Lemma t_formalDefs ms so (P : dsource -> Prop) : P so -> forall dd m s, NoDup (map fst dd) -> (forall x, In x (map fst dd) -> ~ In x (map fst m)) ->
  (forall x i, In (x, i) dd -> formalId ms i <> None) -> defs_at s m P ->
  T (formalDefs primops ms dd so m) (fun m' s' => defs_at s' m' P) s.
Proof.
  intros Ps. induction dd as [|[x i] dd IH]; intros m s N Dj H D; cbn [formalDefs]; [now apply t_ret|].
  specialize (H x i (or_introl eq_refl)) as Hq. destruct (formalId ms i) as [q|]; [|congruence].
  inversion N as [|? ? Nx N']; subst. eapply t_bind; [apply (t_dbAdd x _ so false m s P); auto; apply Dj; now left|].
  intros dm s1 X1 [D1 K1]. eapply (t_bind _ _ top); [apply t_setToDef|]. intros _ s2 X2 _. eapply t_mono; [apply IH; auto|now intros].
  - intros y I J. apply K1 in J as [->|J]; [now apply Nx|]. apply (Dj y); [now right|exact J].
  - intros y j I. apply (H y j). now right.
  - eapply defs_ext; eauto.
Qed.
Lemma table_ok i r ms dd : node_of root (NFormals i r ms dd) -> NoDup (map fst dd) /\ forall x j, In (x, j) dd -> formalId ms j <> None.
Proof.
  intros N. destruct (C26_names_proof src root ds i r ms dd HP N) as [Nd M]. split; [exact Nd|]. intros x j I.
  apply M in I as (f & (pre & post & E & Nf & _) & ->).
  destruct (doc_formals _ _ _ HP _ _ _ _ N) as (_ & _ & _ & _ & _ & _ & _ & U).
  unfold formalId. destruct (find (fun m => Nat.eqb (nid m) (nid f)) ms) as [g|] eqn:F.
  - apply find_some in F as [Ig Eg]. apply Nat.eqb_eq in Eg. assert (g = f).
    { assert (If : In f ms) by (rewrite E; apply in_or_app; right; now left). clear -U Ig If Eg. induction ms as [|m ms IH]; [destruct Ig|].
      cbn in U. inversion U as [|? ? U1 U2]; subst. destruct Ig as [->|Ig], If as [->|If]; auto.
      - exfalso. apply U1. rewrite Eg. now apply in_map.
      - exfalso. apply U1. rewrite <- Eg. now apply in_map. }
    subst g. unfold SemaSpec.named, SemaSpec.ident_of in Nf. destruct f; try discriminate. destruct ident; [discriminate|discriminate].
  - exfalso. apply (find_none _ _ F f) in Eg || idtac. assert (If : In f ms) by (rewrite E; apply in_or_app; right; now left).
    apply (find_none _ _ F) in If. now rewrite Nat.eqb_refl in If.
Qed.
Lemma t_lambdaDefs a s : node_of root a -> kind_of a = NK_LambdaArg -> T (lambdaDefs primops a) (fun m s' => defs_at s' m shown) s.
Proof.
  intros N K. destruct a; try discriminate. pose proof (local_ _ (node_within _ _ N)) as (_ & Tf). unfold lambdaDefs.
  assert (Nf : forall f, formals = Some f -> node_of root f).
  { intros f ->. apply (doc_child _ _ _ N). cbn [children]. rewrite !present_cons. apply in_or_app. right. left. reflexivity. }
  assert (D0 : forall s, defs_at s [] shown) by (intros ? ? []).
  assert (Sh : forall q so, shown so -> forall s, T (let? dm := dbAdd primops (idName q) q so false [] in do? setToDef (nid q) (fst dm) in vret (snd dm))
     (fun m s' => defs_at s' m shown /\ forall k, In k (map fst m) -> k = idName q) s).
  { intros q so Hs s0. eapply t_bind; [apply (t_dbAdd _ _ so false [] s0 shown); auto|]. intros dm s1 X1 [D1 K1].
    eapply (t_bind _ _ top); [apply t_setToDef|]. intros _ s2 X2 _. apply t_ret. intros _ _. split; [eapply defs_ext; eauto|].
    intros k I. apply K1 in I as [->|[]]. reflexivity. }
  destruct formals as [f|].
  - specialize (Nf f eq_refl). cbn [opt] in Tf. unfold is_kind in Tf. destruct f; try discriminate.
    destruct (table_ok _ _ _ _ Nf) as [Nd Hf].
    assert (Fin : forall m s, defs_at s m shown -> (forall k, In k (map fst dedup) -> ~ In k (map fst m)) -> T (formalDefs primops members dedup
       (match ident with Some _ => DS_LambdaWithArg_Formal | None => DS_LambdaNoArg_Formal end) m) (fun m' s' => defs_at s' m' shown) s).
    { intros m s0 D Dj. apply t_formalDefs; auto. right. destruct ident; eexists; reflexivity. }
    destruct ident as [q|].
    + destruct (bfind (idName q) dedup) eqn:B.
      * eapply (t_bind _ _ (fun m s' => m = [])); [now apply t_ret|]. intros m s1 X1 ->. eapply t_mono; [apply Fin; auto|now intros].
      * eapply t_bind; [apply (Sh q DS_LambdaWithArg_Arg); right; eexists; reflexivity|]. intros m s1 X1 [D1 K1].
        eapply t_mono; [apply Fin; auto|now intros]. intros k I J. apply K1 in J as ->. now apply bfind_none in B.
    + eapply (t_bind _ _ (fun m s' => m = [])); [now apply t_ret|]. intros m s1 X1 ->. eapply t_mono; [apply Fin; auto|now intros].
  - destruct ident as [q|].
    + eapply t_bind; [apply (Sh q DS_LambdaArg); now left|]. intros m s1 X1 [D1 _]. now apply t_ret.
    + eapply (t_bind _ _ (fun m s' => m = [])); [now apply t_ret|]. intros m s1 X1 ->. now apply t_ret.
Qed.
Lemma t_checkRec rc f s : (forall kw, rc = Some kw -> within_ kw /\ kind_of kw = NK_Misc) -> (f <> None -> rc <> None) -> T (checkRec rc f) top s.
Proof.
  intros W N. unfold checkRec. destruct f as [f|]; [|now apply t_ret]. apply t_seq; [apply t_isLive|]. intros live s' X.
  destruct live; [now apply t_ret|]. destruct rc as [kw|]; [|exfalso; now apply N]. destruct (W kw eq_refl) as [Wk K].
  eapply t_lift; [apply rem; [exact Wk|congruence]|]. apply t_diag.
Qed.
Lemma t_dfsAttrs go i r bd rc st dy e syn so s (P : dsource -> Prop) : within_ (NAttrs i r bd rc st dy) ->
  (forall i r kw semi w x, syn <> NWith i r kw semi w x) -> P so -> eok s e ->
  (forall p e' s', In p st -> ext s s' -> eok s' e' -> T (go (a_value (snd p)) e') top s') ->
  (forall a e' s', In a dy -> ext s s' -> eok s' e' -> T (go (a_key a) e') top s' /\ T (go (a_value a) e') top s') ->
  T (dfsAttrs primops go rc st dy e syn so)
    (fun o s' => match rc with Some _ => exists m, o = Some (Frame m (Some syn)) /\ defs_at s' m P | None => o = None end) s.
Proof.
  intros W NW Ps E H1 H2. unfold dfsAttrs.
  assert (Nd : NoDup (map fst st)).
  { apply SemaProofs.sorted_nodup. destruct (doc_tidy src root ds HP _ W) as [_ (_ & So & _)]. exact So. }
  destruct rc as [kw|]; cbn [isRec].
  - eapply t_bind; [apply (t_attrDefs so P Ps st [] s Nd); [intros x _ []|exact (entry_inh _ _ _ _ _ _ W)|intros p []]|].
    intros m s1 X1 D1. assert (Ef : forall s', ext s1 s' -> eok s' (Frame m (Some syn) :: e)).
    { intros s' X. apply eok_plain; auto. eapply eok_ext; [|exact E]. eapply ext_trans; eauto. }
    eapply (t_bind _ _ top).
    { apply t_vfor. intros p s' I X. assert (X' : ext s s') by (eapply ext_trans; eauto). apply H1; auto. destruct (a_kind (snd p)); auto. eapply eok_ext; eauto. }
    intros _ s2 X2 _. eapply (t_bind _ _ top).
    { apply t_vfor. intros a s' I X. assert (X' : ext s1 s') by (eapply ext_trans; eauto). assert (X0 : ext s s') by (eapply ext_trans; eauto).
      apply t_seq; [now apply H2; auto|]. intros _ s3 X3. apply H2; auto; [|apply Ef]; eapply ext_trans; eauto. }
    intros _ s3 X3 _. apply t_ret. intros _ _ _. exists m. split; [reflexivity|]. eapply defs_ext; [|exact D1]. eapply ext_trans; eauto.
  - eapply (t_bind _ _ top).
    { apply t_vfor. intros p s' I X. apply H1; auto. eapply eok_ext; eauto. }
    intros _ s2 X2 _. eapply (t_bind _ _ top).
    { apply t_vfor. intros a s' I X. assert (X0 : ext s s') by (eapply ext_trans; eauto).
      apply t_seq; [apply H2; auto; eapply eok_ext; eauto|]. intros _ s3 X3. assert (X4 : ext s s3) by (eapply ext_trans; eauto). apply H2; auto; eapply eok_ext; eauto. }
    intros _ s3 X3 _. apply t_ret. now intros.
Qed.

(** ** `with` *)
Lemma t_withStart i r kw semi w e s : T (withStart (NWith i r kw semi w e) kw) (fun _ s' => nfind i (v_with s') <> None) s.
Proof.
  intros I. unfold withStart, hasWithDef. cbn [nid]. destruct (nfind i (v_with s)) as [d|] eqn:E.
  - exists tt, s. unfold vbind. rewrite E. split; [reflexivity|]. split; [apply ext_refl|]. split; [exact I|]. congruence.
  - assert (K : T (let? d := newDef (Some kw) DS_With in do? setToDef (nid kw) d in setWithDef i d) (fun _ s' => nfind i (v_with s') <> None) s).
    { eapply t_bind; [apply t_newDef|]. intros d s1 X1 D1. eapply (t_bind _ _ top); [apply t_setToDef|]. intros _ s2 X2 _.
      eapply t_mono; [eapply t_setWithDef; exact (src_ext _ _ _ _ X2 D1)|]. cbv beta. auto. }
    destruct (K I) as (a & s' & Ea & X). exists a, s'. split; [|exact X]. unfold vbind at 1. rewrite E. exact Ea.
Qed.
Lemma t_withEnd i r kw semi w e s : within_ (NWith i r kw semi w e) -> nfind i (v_with s) <> None -> T (withEnd (NWith i r kw semi w e) kw semi w) top s.
Proof.
  intros W H. unfold withEnd. cbn [nid]. eapply t_bind; [apply t_withDef; exact H|]. intros d s1 X1 D1.
  destruct (local_ _ W) as (T1 & T2 & T3 & _).
  assert (Wc : forall m, In m (kw :: optlist semi ++ optlist w) -> within root m).
  { intros m I. eapply in_child; [exact W|]. cbn [children]. rewrite !present_cons, !in_app_iff. cbn [optlist In].
    destruct I as [I|I]; [auto|]. apply in_app_or in I. tauto. }
  assert (K : T (let? d := getDef d in
    match df_uses d with
    | _ :: _ => vret tt
    | [] =>
        let? e1 := vlift (mkRemoval (nrange kw)) in
        let? e2 := match semi with Some t => let? x := vlift (mkRemoval (nrange t)) in vret [x] | None => vret [] end in
        let? e3 := match w with Some t => let? x := vlift (mkRemoval (nrange t)) in vret [x] | None => vret [] end in
        vdiag (d_fix (Fix_ (b "remove `with` expression") (e1 :: e2 ++ e3)) (diag0 DK_ExtraWith (nrange kw)))
    end) top s1).
  { eapply t_getDef; [exact D1|]. intros x _. destruct (df_uses x); [|now apply t_ret].
    eapply t_lift; [apply rem; [apply Wc; now left|unfold is_kind in T1; congruence]|].
    apply t_seq.
    { destruct semi as [t|]; [|now apply t_ret]. cbn [opt] in T2. eapply t_lift; [apply rem; [apply Wc; right; now left|unfold is_kind in T2; congruence]|]. now apply t_ret. }
    intros e2 s2 X2. apply t_seq; [|intros; apply t_diag].
    destruct w as [t|]; [|now apply t_ret]. cbn [opt] in T3.
    eapply t_lift; [apply rem; [apply Wc; right; apply in_or_app; right; now left|now apply isExpr_ne]|]. now apply t_ret. }
  eapply t_mono; [exact K|now intros].
Qed.

(** ** the traversal *)
Notation G := (G root).
Lemma with_ext n s s' : ext s s' -> nfind n (v_with s) <> None -> nfind n (v_with s') <> None.
Proof. intros [_ X]. apply X. Qed.
Lemma t_dfs : forall k n, vsize n <= k -> G n -> forall e s, eok s e -> T (dfs primops n e) top s.
Proof.
  induction k as [|k IHk]; intros n L Gn e s E; [destruct n; cbn in L; lia|].
  assert (IH : forall sc c, In (sc, c) (enters [] n) -> forall e' s', eok s' e' -> T (dfs primops c e') top s').
  { intros sc c I e' s'. apply IHk; [apply enters_size in I; lia|]. exact (G_enters src root ds HP _ _ _ _ Gn I). }
  assert (IC : enters [] n = map (pair []) (somes (children n)) -> forall c, In (Some c) (children n) -> forall s', ext s s' -> T (dfs primops c e) top s').
  { intros Q c I s' X. apply (IH []); [rewrite Q; apply in_map; now apply in_somes|]. eapply eok_ext; eauto. }
  clear IHk L. destruct Gn as [P W].
  assert (KN : forall o s', (forall c, o = Some c -> T (dfs primops c e) top s') -> T (match o with Some m => dfs primops m e | None => vret tt end) top s').
  { intros o s' H. destruct o; [now apply H|now apply t_ret]. }
  destruct n; cbn [dfs]; (apply t_seq; [apply t_insEnv|intros _ s1 X1]);
    try solve [specialize (IC eq_refl); cbn [children] in IC;
    repeat match goal with
    | |- T (vret _) _ _ => now apply t_ret
    | |- T (match ?o with Some _ => dfs _ _ _ | None => _ end) _ _ => apply KN; intros ? ->
    | |- T (vfor _ _) _ _ => apply t_vfor; intros ? ? ? ?
    | |- T (match ?o with inl _ => _ | inr _ => _ end) _ _ => destruct o
    | |- T (dfs _ _ _) _ _ => apply IC; [cbn [In]; rewrite ?in_app_iff, ?in_map_iff; eauto 10 using in_interps|eauto 6 using ext_trans]; fail
    | |- T (vbind _ _) _ _ => apply t_seq; [|intros ? ? ?]
    end].
  - apply t_lookupVar. eapply eok_ext; eauto.
  - specialize (IC eq_refl). cbn [children] in IC.
    apply t_seq; [|intros _ s2 X2]; apply t_vfor; intros x s' I X; (apply IC; [apply in_map; apply in_or_app; auto|eauto using ext_trans]).
  - specialize (IC eq_refl). cbn [children] in IC. apply t_seq.
    + apply t_vfor. intros x s' I X. apply IC; [|eauto using ext_trans]. apply in_or_app. left. now apply in_map.
    + intros _ s2 X2. apply KN. intros x ->. apply IC; [|eauto using ext_trans]. apply in_or_app. right. now left.
  - eapply t_bind.
    { apply (t_dfsAttrs _ _ _ _ _ _ _ _ _ _ _ (fun _ => True) W); auto; [discriminate|eapply eok_ext; eauto| |].
      - intros p e' s' I X E'. cbn [enters] in IH. destruct rc; (eapply IH; [|exact E']; unfold in_set; apply in_or_app; left; apply in_map_iff; exists p; split; [reflexivity|exact I]).
      - intros a e' s' I X E'. cbn [enters] in IH. destruct rc; (split; (eapply IH; [|exact E']; unfold in_set; apply in_or_app; right; apply in_flat_map; exists a; split; [exact I|cbn; auto])). }
    intros o s2 X2 Ho. eapply t_mono; [apply t_checkRec|now intros].
    + intros kw ->. split; [eapply in_child; [exact W|]; cbn [children]; rewrite !present_cons, !in_app_iff; cbn; auto|].
      destruct (local_ _ W) as (_ & Tm & _). exact Tm.
    + intros No. destruct rc; [discriminate|congruence].
  - specialize (IC eq_refl). cbn [children] in IC. apply t_seq; [apply IC; [now left|exact X1]|]. intros _ s2 X2.
    apply t_seq; [apply KN; intros x ->; apply IC; [right; now left|eauto using ext_trans]|]. intros _ s3 X3.
    apply t_seq; [apply KN; intros x ->; apply IC; [right; right; now left|eauto using ext_trans]|]. intros _ s4 X4. now apply t_checkBuiltins.
  - assert (KX : forall e' s', eok s' e' -> T (match e0 with Some m => dfs primops m e' | None => vret tt end) top s').
    { intros e' s' E'. destruct e0 as [x|]; [|now apply t_ret]. cbn [enters] in IH.
      destruct attrs as [a|]; [destruct a|]; try (eapply IH; [left; reflexivity|exact E']). eapply IH; [|exact E']. apply in_or_app. right. left. reflexivity. }
    assert (Fin : forall m s', ext s s' -> defs_at s' m shown ->
      T (do? match e0 with Some x => dfs primops x (Frame m (Some (NLet id r n kwin e0 attrs)) :: e) | None => vret tt end in
         emitEnvLivenessWarning (Frame m (Some (NLet id r n kwin e0 attrs)))) top s').
    { intros m s' X D. apply t_seq; [apply KX; apply eok_plain; [discriminate|eapply eok_ext; eauto]|]. intros _ s3 X3.
      apply t_emit; [exact W|]. eapply defs_ext; eauto. }
    eapply (t_bind _ _ (fun o s' => exists m, o = Some (Frame m (Some (NLet id r n kwin e0 attrs))) /\ defs_at s' m shown)).
    2:{ intros o s2 X2 (m & -> & D). eapply t_mono; [apply Fin; eauto using ext_trans|now intros]. }
    destruct attrs as [a|]; [|apply t_ret; eexists; split; [reflexivity|intros ? []]].
    assert (Wa : within root a).
    { eapply in_child; [exact W|]. cbn [children]. rewrite !present_cons, !in_app_iff. cbn. auto. }
    destruct (doc_tidy src root ds HP _ W) as [_ (_ & Rec & _)]. specialize (Rec a eq_refl).
    destruct a; try discriminate. cbn [attrs_rec] in Rec. subst rc. cbn [isRec negb].
    eapply (t_bind _ _ top); [eapply t_checkLet; exact Wa|]. intros _ s2 X2 _.
    eapply t_mono; [apply (t_dfsAttrs _ _ _ _ _ _ _ _ _ _ _ shown Wa)|].
    + discriminate.
    + right. eexists. reflexivity.
    + eapply eok_ext; [|exact E]. eauto using ext_trans.
    + intros p e' s' I X E'. cbn [enters] in IH. eapply IH; [|exact E']. apply in_or_app. left. unfold in_set. apply in_or_app. left. apply in_map_iff. exists p. split; [reflexivity|exact I].
    + intros p e' s' I X E'. cbn [enters] in IH. split; (eapply IH; [|exact E']; apply in_or_app; left; unfold in_set; apply in_or_app; right; apply in_flat_map; exists p; split; [exact I|cbn; auto]).
    + intros o s3 X3 Ho _. exact Ho.
  - destruct attrs as [a|]; [|now apply t_ret].
    assert (Wa : within root a).
    { eapply in_child; [exact W|]. cbn [children]. rewrite !present_cons, !in_app_iff. cbn. auto. }
    destruct (doc_tidy src root ds HP _ W) as [_ (_ & Rec)]. specialize (Rec a eq_refl).
    destruct a; try discriminate. cbn [attrs_rec] in Rec. subst rc.
    eapply t_bind.
    { apply (t_dfsAttrs _ _ _ _ _ _ _ _ _ _ _ (fun _ => True) Wa); auto; [discriminate|eapply eok_ext; eauto| |].
      - intros p e' s' I X E'. cbn [enters] in IH. eapply IH; [|exact E']; unfold in_set; apply in_or_app; left; apply in_map_iff; exists p; split; [reflexivity|exact I].
      - intros a e' s' I X E'. cbn [enters] in IH. split; (eapply IH; [|exact E']; unfold in_set; apply in_or_app; right; apply in_flat_map; exists a; split; [exact I|cbn; auto]). }
    intros o s2 X2 Ho. eapply t_mono; [apply t_checkRec|now intros].
    + intros kw [= <-]. split; [eapply in_child; [exact Wa|]; cbn [children]; rewrite !present_cons, !in_app_iff; cbn; auto|].
      destruct (local_ _ Wa) as (_ & Tm & _). exact Tm.
    + discriminate.
  - eapply t_bind; [apply t_withStart|]. intros u s2 X2 H2. cbv beta in H2. clear u. cbn [enters] in IH. eapply (t_bind _ _ top).
    { destruct w as [x|]; [|now apply t_ret]. eapply IH; [apply in_or_app; left; left; reflexivity|]. eapply eok_ext; [|exact E]. eauto using ext_trans. }
    intros _ s3 X3 _. eapply (t_bind _ _ top).
    { destruct e0 as [x|]; [|now apply t_ret]. eapply IH; [apply in_or_app; right; left; reflexivity|]. apply eok_cons.
      - intros _. cbn [synId fr_syn nid]. eapply with_ext; eauto.
      - eapply eok_ext; [|exact E]. eauto using ext_trans. }
    intros _ s4 X4 _. eapply t_mono; [apply t_withEnd; [exact W|eauto using with_ext]|now intros].
  - specialize (IC eq_refl). cbn [children] in IC. destruct ell as [x|]; [apply IC; [now left|exact X1]|].
    apply t_seq; [apply KN; intros x ->; apply IC; [now left|exact X1]|]. intros _ s2 X2.
    apply KN. intros x ->. apply IC; [right; now left|eauto using ext_trans].
  - destruct body as [bd|]; [|now apply t_ret]. destruct (local_ _ W) as (Ta & _ & Na). destruct arg as [a|]; [|congruence]. cbn [opt] in Ta.
    assert (N : node_of root (NLambda id r (Some a) (Some bd))).
    { destruct P as [P|(p & q & name & Eq & _)]; [|discriminate]. now inversion P. }
    assert (Nn : node_of root a) by (apply (doc_child _ _ _ N); left; reflexivity).
    eapply t_bind; [apply (t_lambdaDefs a _ Nn Ta)|]. intros m s2 X2 D. cbn [enters] in IH.
    assert (Ee : forall s', ext s2 s' -> eok s' (Frame m (Some (NLambda id r (Some a) (Some bd))) :: e)).
    { intros s' X. apply eok_plain; [discriminate|]. eapply eok_ext; [|exact E]. eauto using ext_trans. }
    eapply (t_bind _ _ top).
    { destruct a; try now apply t_ret. destruct formals as [f|]; [|now apply t_ret]. destruct f; try now apply t_ret.
      apply t_vfor. intros q s' I X. destruct q; try now apply t_ret. destruct dflt as [d|]; [|now apply t_ret].
      eapply IH; [|now apply Ee]. apply in_or_app. left. apply in_map. unfold defaults. apply in_flat_map. eexists. split; [exact I|]. now left. }
    intros _ s3 X3 _. eapply (t_bind _ _ top).
    { eapply IH; [apply in_or_app; right; now left|]. now apply Ee. }
    intros _ s4 X4 _. eapply t_mono; [apply t_emit; [exact W|]|now intros]. eapply defs_ext; [|exact D]. eauto using ext_trans.
Qed.

(** ** the whole *)
Lemma t_builtinDefs : forall xs m s, NoDup xs -> (forall x, In x xs -> ~ In x (map fst m)) -> defs_at s m (fun _ => True) ->
  T (builtinDefs xs m) (fun m' s' => forall k, In k (map fst m') <-> In k xs \/ In k (map fst m)) s.
Proof.
  induction xs as [|x xs IH]; intros m s N Dj D; cbn [builtinDefs].
  - apply t_ret. intros k. cbn. tauto.
  - inversion N as [|? ? Nx N']; subst. eapply t_bind; [apply (t_addSimple x None DS_Builtin m s (fun _ => True)); auto; apply Dj; now left|].
    intros dm s1 X1 [D1 K1]. eapply t_mono; [apply IH; auto|].
    + intros y I J. apply K1 in J as [->|J]; [now apply Nx|]. apply (Dj y); [now right|exact J].
    + intros m' s2 _ H _ k. cbv beta in H. specialize (H k). specialize (K1 k). cbn [In]. rewrite H, K1. intuition congruence.
Qed.
Theorem vla_total : NoDup (builtinNames primops) -> Forall (fun p => snd p = false) primops -> exists s, vla primops root = Ok s.
Proof.
  intros N F. assert (H : T (runOnAST primops root) top vst0).
  { unfold runOnAST. eapply t_bind; [apply (t_builtinDefs _ [] _ N); [intros ? ? []|intros ? []]|]. intros m s X K.
    eapply t_mono; [eapply (t_dfs _ root (le_n _) (G_root root))|now intros]. split.
    - constructor; [|constructor]. discriminate.
    - intros x Hx. cbn [walk fr_defs]. destruct (bfind x m) eqn:B; [discriminate|]. exfalso. apply bfind_none in B. apply B. apply K. left.
      destruct (bfind x primops) as [fl|] eqn:Bp; [|congruence]. apply bfind_in in Bp. unfold builtinNames. apply in_or_app. left.
      apply in_map_iff. exists (x, fl). split; [reflexivity|]. apply filter_In. split; [exact Bp|]. rewrite Forall_forall in F. specialize (F _ Bp). cbn in *. now rewrite F. }
  destruct H as ([] & s & E & _); [discriminate|]. exists s. unfold vla. now rewrite E.
Qed.
End Total.
