(** The analysis does what the scoping specification says. *)
From Verif Require Import Base Diag LexModel AstModel SemaModel VlaModel VlaSpec VlaPost VlaBase.

Ltac dsplit := split; [try congruence; auto|split; [try congruence; auto|split; [try congruence; auto|
  split; [try congruence; auto|split; [try congruence; auto|split; [try congruence; auto|]]]]]].

Section A.
Variable primops : list (bytes * bool).
Variable s0 : scope.
Variable root : node.
Definition R : scope -> node -> Prop := visit s0 root.
Definition cohw : Prop := forall s1 w1 s2 w2, R s1 w1 -> R s2 w2 ->
  kind_of w1 = NK_ExprWith -> kind_of w2 = NK_ExprWith -> nid w1 = nid w2 -> s1 = s2 /\ w1 = w2.
Notation post := (post cohw).
Notation lookup := (lookupGlobalPrimOpInfo primops).

Definition hist (s : vst) : Prop := forall k d x u, nfind k (v_with s) = Some d -> defn s d x -> In u (df_uses x) ->
  exists sc v y w, R sc v /\ is_var v y /\ nid v = u /\ unbound sc y /\ In w (withs sc) /\ nid w = k.
Lemma hist_post U W D s s' : hist s -> post U W D s s' -> (forall sc n, W sc n -> R sc n) -> hist s'.
Proof.
  intros H P HW k d x u K X I. apply (po_wuses _ _ _ _ _ _ P k d x K X u) in I as [(y & A & B & C)|(sc & v & y & w & A & B)].
  - eapply H; eauto.
  - exists sc, v, y, w. auto.
Qed.

(** the uses of the definitions of an environment *)
Definition UE (e : env) (sc : scope) (W : scope -> node -> Prop) : nat -> nat -> Prop := fun d u =>
  exists s' v y pre, W s' v /\ is_var v y /\ nid v = u /\ s' = pre ++ sc /\ unbound pre y /\ fst (walk y e) = Some d.

(** ** what is reported *)
Definition unusedDiag (who : node) (x : bytes) (nd : node) (src : dsource) (k : dkind) : diag :=
  let d0 := d_tag Faded (d_arg x (diag0 k (nrange nd))) in
  match src with
  | DS_Let => match bindingAt (nrange nd) (letBindings who) with
              | Some q => d_fix (Fix_ (b "remove unused binding") [TEdit (nrange q) []]) d0
              | None => d0
              end
  | _ => d0
  end.
Definition recDiag (kw : node) : diag :=
  d_tag Faded (d_fix (Fix_ (b "remove `rec` keyword") [TEdit (nrange kw) []]) (diag0 DK_ExtraRecursive (nrange kw))).
Definition removals (l : list (option node)) : list tedit := map (fun n => TEdit (nrange n) []) (somes l).
Definition withDiag (kw : node) (semi w : option node) : diag :=
  d_fix (Fix_ (b "remove `with` expression") (removals [Some kw; semi; w])) (diag0 DK_ExtraWith (nrange kw)).

Inductive emits (sc : scope) (n : node) : diag -> Prop :=
| em_undef x : is_var n x -> unbound sc x -> withs sc = [] -> lookup x = NotFound ->
    emits sc n (d_arg x (diag0 DK_UndefinedVariable (nrange n)))
| em_prefix x : is_var n x -> unbound sc x -> withs sc = [] -> lookup x = PrefixedFound ->
    emits sc n (d_fix (Fix_ (b "use `builtins.` prefix") [TEdit (point (nl n)) (b "builtins.")])
                      (diag0 DK_PrimOpNeedsPrefix (nrange n)))
| em_unused who names x nd src k : opens n = Some (Binds who names) -> In (x, (nd, src)) names ->
    unusedKind src = Ok k -> (forall u, ~ used sc n (Binds who names) x u) ->
    emits sc n (unusedDiag who x nd src k)
| em_rec i r bd kw st dy names : opens n = Some (Binds (NAttrs i r bd (Some kw) st dy) names) ->
    (forall x u, In x (map fst names) -> ~ used sc n (Binds (NAttrs i r bd (Some kw) st dy) names) x u) ->
    emits sc n (recDiag kw)
| em_with i r kw semi w e : n = NWith i r kw semi w e -> ~ wused sc n -> emits sc n (withDiag kw semi w).

(** what is said of `builtins.x` and `inherit (builtins) x` *)
Inductive hints (n : node) : diag -> Prop :=
| hi_prefix i r e dot i1 r1 first dots dflt x :
    n = NSelect i r e dot (Some (NAttrPath i1 r1 [first] dots)) dflt None ->
    is_var e (b "builtins") -> staticName first = Some x -> lookup x = Found ->
    hints n (d_fix (Fix_ (b "remove `builtins.` prefix") (removals [Some e; dot])) (diag0 DK_PrimOpRemovablePrefix (nrange e)))
| hi_unknown i r e dot i1 r1 first dots dflt x :
    n = NSelect i r e dot (Some (NAttrPath i1 r1 [first] dots)) dflt None ->
    is_var e (b "builtins") -> staticName first = Some x -> lookup x = NotFound -> isBuiltinConstant x = false ->
    hints n (d_arg x (diag0 DK_PrimOpUnknown (nrange first)))
| hi_inherit i r kl kwin body i1 r1 bd rc st dy x a :
    n = NLet i r kl kwin body (Some (NAttrs i1 r1 bd rc st dy)) -> In (x, a) st ->
    checkInheritedFromBuiltin a = Ok true -> lookup x = Found ->
    hints n (d_fix (Fix_ (b "remove unnecessary inherit") [TEdit (nrange (a_key a)) []])
                   (diag0 DK_PrimOpRemovablePrefix (nrange (a_key a)))).

Definition DV (sc : scope) (n : node) : diag -> Prop := fun dg =>
  exists s' m, visit sc n s' m /\ (emits s' m dg \/ hints m dg).
(** the same but for what is said of the node itself by [hints] *)
Definition DC (sc : scope) (n : node) : diag -> Prop := fun dg =>
  emits sc n dg \/ exists s1 n1, In (s1, n1) (enters sc n) /\ DV s1 n1 dg.
Lemma DV_DC sc n dg : DV sc n dg <-> DC sc n dg \/ hints n dg.
Proof.
  unfold DV, DC. split.
  - intros (s' & m & V & E). destruct V as [|s n s1 n1 s' m I V]; [tauto|]. left. right. exists s1, n1. split; auto. exists s', m. auto.
  - intros [[E|(s1 & n1 & I & s' & m & V & E)]|E].
    + exists sc, n. split; [constructor|auto].
    + exists s', m. split; auto. econstructor; eauto.
    + exists sc, n. split; [constructor|auto].
Qed.

(** ** elementary steps *)
Definition only (sc : scope) (n : node) : scope -> node -> Prop := fun s m => s = sc /\ m = n.

(** a state that differs in its diagnostics only *)
Lemma post_diags (D : diag -> Prop) s s' :
  v_defs s' = v_defs s -> v_with s' = v_with s -> v_todef s' = v_todef s -> v_envs s' = v_envs s ->
  v_res s' = v_res s -> v_ws s' = v_ws s ->
  (forall dg, watched (d_kind dg) = true -> (d_kind dg <> DK_ExtraWith \/ cohw) -> In dg (v_diags s') <-> In dg (v_diags s) \/ D dg) ->
  post none2 none2 D s s'.
Proof.
  intros E1 E2 E3 E4 E5 E6 HD.
  assert (Ed : forall d x, defn s' d x <-> defn s d x) by (intros; unfold defn; now rewrite E1).
  assert (Et : total s' = total s) by (unfold total; now rewrite E1).
  unfold none2. constructor; rewrite ?E2, ?E3, ?E4, ?E5, ?E6; try tauto; try (now intros; left); auto.
  - lia.
  - intros d x H. exists (df_uses x). apply Ed. now destruct x.
  - intros d x x' H _ H'. apply Ed in H'. rewrite (defn_fun _ _ _ _ H H'). tauto.
  - intros k d x' H H' u. apply Ed in H'. split; [intros; left; eauto|].
    intros [(x & _ & E & I)|(? & ? & ? & ? & [] & _)]. now rewrite (defn_fun _ _ _ _ H' E).
  - intros d x H H'. apply Ed in H'. apply defn_lt in H'. lia.
  - intros d x H H'. apply Ed in H'. apply defn_lt in H'. lia.
Qed.
Lemma good_same s s' : v_defs s' = v_defs s -> v_with s' = v_with s -> good s -> good s'.
Proof. intros E1 E2 [A B]. unfold good, defn. rewrite E1, E2. split; auto. Qed.

(** sequences of steps that only add diagnostics *)
Definition diagonly (D : diag -> Prop) (s s' : vst) : Prop :=
  v_defs s' = v_defs s /\ v_with s' = v_with s /\ v_todef s' = v_todef s /\ v_envs s' = v_envs s /\
  v_res s' = v_res s /\ v_ws s' = v_ws s /\
  (forall dg, watched (d_kind dg) = true -> (d_kind dg <> DK_ExtraWith \/ cohw) -> In dg (v_diags s') <-> In dg (v_diags s) \/ D dg).
Lemma diagonly_post D s s' : diagonly D s s' -> post none2 none2 D s s'.
Proof. intros (A & B & C & E & F & G & H). now apply post_diags. Qed.
Lemma diagonly_good D s s' : diagonly D s s' -> good s -> good s'.
Proof. intros (A & B & _). now apply good_same. Qed.
Lemma diagonly_refl s : diagonly none1 s s.
Proof. unfold none1. dsplit. tauto. Qed.
Lemma diagonly_trans D1 D2 s s1 s2 : diagonly D1 s s1 -> diagonly D2 s1 s2 -> diagonly (or1 D1 D2) s s2.
Proof.
  intros (A & B & C & E & F & G & H) (A' & B' & C' & E' & F' & G' & H').
  dsplit. unfold or1. intros dg K L. rewrite H', H; tauto.
Qed.
Lemma diagonly_ext D D' s s' : (forall d, D d <-> D' d) -> diagonly D s s' -> diagonly D' s s'.
Proof. intros E (A & B & C & F & G & H & I). dsplit. intros dg K L. rewrite <- E. auto. Qed.
Lemma vdiag_only d s s' r : vdiag d s = Ok (r, s') -> diagonly (fun dg => dg = d) s s'.
Proof. intros H. injection H as _ <-. dsplit. simpl. intuition. Qed.
Lemma vlift_ok {A} (m : res A) s a s' : vlift m s = Ok (a, s') -> m = Ok a /\ s' = s.
Proof. unfold vlift. destruct m; intros H; try discriminate. injection H as <- <-. auto. Qed.
Lemma mkEdit_ok r t e : mkEdit r t = Ok e -> e = TEdit r t.
Proof. unfold mkEdit. destruct (edit_ok r t); intros H; [congruence|discriminate]. Qed.

Lemma vfor_diag {A} (f : A -> V unit) (D : A -> diag -> Prop) s0' :
  (forall x s r s', v_defs s = v_defs s0' -> v_with s = v_with s0' -> f x s = Ok (r, s') -> diagonly (D x) s s') ->
  forall l s r s', v_defs s = v_defs s0' -> v_with s = v_with s0' -> vfor f l s = Ok (r, s') ->
  diagonly (fun dg => exists x, In x l /\ D x dg) s s'.
Proof.
  intros H. induction l as [|x l IH]; intros s r s' E1 E2 Q; simpl in Q.
  - vinv Q. eapply diagonly_ext; [|apply diagonly_refl]. unfold none1. firstorder.
  - vinv Q. destruct a. pose proof (H _ _ _ _ E1 E2 H0) as P1.
    assert (P2 : diagonly (fun dg => exists y, In y l /\ D y dg) s1 s').
    { eapply IH; eauto; [destruct P1 as (F & _)|destruct P1 as (_ & F & _)]; congruence. }
    eapply diagonly_ext; [|apply (diagonly_trans _ _ _ _ _ P1 P2)]. intros d. unfold or1. simpl. firstorder congruence.
Qed.

Lemma walk_fst st sc e x d : rep st sc e -> fst (walk x e) = Some d ->
  exists l t, bound sc x (l :: t).
Proof.
  intros Q H. destruct (walk x e) as [o ws] eqn:E. simpl in H. subst.
  destruct (walk_some _ _ _ _ _ _ Q E) as (l & t & y & B & _). eauto.
Qed.

(** entering a node *)
Definition entered (n : node) (e : env) (s : vst) : vst :=
  VS (v_diags s) (v_defs s) (v_with s) (v_todef s) (insert_new (nid n) e (v_envs s)) (v_res s) (v_ws s).
Lemma insEnv_entered n e s r s' : insEnv (nid n) e s = Ok (r, s') -> s' = entered n e s.
Proof. intros H. injection H as _ <-. reflexivity. Qed.

Lemma env_case n (e : env) l k e' : nfind k (insert_new (nid n) e l) = Some e' ->
  nfind k l = Some e' \/ (nid n = k /\ e' = e).
Proof.
  rewrite nfind_insert_new. destruct (nfind k l); [auto|]. destruct (Nat.eqb_spec k (nid n)); [|discriminate].
  intros H. injection H as <-. auto.
Qed.
Lemma insert_new_old {A} k (v : A) l k' v' : nfind k' l = Some v' -> nfind k' (insert_new k v l) = Some v'.
Proof. intros H. now rewrite nfind_insert_new, H. Qed.
Lemma insert_new_this {A} k (v : A) l : exists v', nfind k (insert_new k v l) = Some v'.
Proof. rewrite nfind_insert_new. destruct (nfind k l); eauto. rewrite Nat.eqb_refl. eauto. Qed.

Lemma post_entered n e sc s : kind_of n <> NK_ExprVar -> kind_of n <> NK_ExprWith -> opens n = None -> rep s sc e ->
  post none2 (only sc n) none1 s (entered n e s).
Proof.
  intros K1 K2 O Rp. unfold none2, only, none1.
  assert (Hv : forall x, ~ is_var n x) by (intros x [Q _]; contradiction).
  constructor; simpl; try tauto; try (now intros; left); auto.
  - intros d x H. exists (df_uses x). now destruct x.
  - intros d x x' H _ H'. rewrite (defn_fun _ _ _ _ H H'). tauto.
  - intros sc0 w [-> ->] H. contradiction.
  - intros sc0 m w [-> ->] H. destruct (rep_withs _ _ _ _ Rp H) as (_ & d & y & Q & _). eauto.
  - intros k d x' H H' u. split; [intros; left; eauto|].
    intros [(x & _ & E & I)|(? & ? & y & ? & [-> ->] & V & _)]; [|now elim (Hv y)].
    now rewrite (defn_fun _ _ _ _ H' E).
  - intros d x H H'. apply defn_lt in H'. unfold total in *. simpl in H'. lia.
  - intros d x H H'. apply defn_lt in H'. unfold total in *. simpl in H'. lia.
  - intros sc0 v x [-> ->] V. now elim (Hv x).
  - intros sc0 v x [-> ->] V. now elim (Hv x).
  - intros k e' H. apply env_case in H as [H|[<- ->]]; [now left|right]. exists sc, n. auto.
  - intros. now apply insert_new_old.
  - intros sc0 m [-> ->]. apply insert_new_this.
  - intros sc0 m who names [-> ->]. congruence.
Qed.

(** looking up a variable *)
Lemma post_var n e sc x s s' r ws :
  is_var n x -> rep s sc e -> good s -> total s' = total s ->
  (forall d y, defn s d y -> exists us, defn s' d (VDef (df_syn y) (df_src y) us) /\
     forall u, In u us <-> In u (df_uses y) \/ (u = nid n /\ (fst (walk x e) = Some d \/
        (unbound sc x /\ exists w, In w (withs sc) /\ nfind (nid w) (v_with s) = Some d)))) ->
  v_with s' = v_with s -> v_todef s' = v_todef s -> v_envs s' = insert_new (nid n) e (v_envs s) ->
  v_res s' = insert_new (nid n) r (v_res s) -> res_ok s sc x r -> (forall d, r = Defined d -> fst (walk x e) = Some d) ->
  v_ws s' = ws ->
  ((ws = v_ws s /\ (withs sc = [] \/ ~ unbound sc x)) \/
   (ws = insert_new (nid n) (map nid (withs sc)) (v_ws s) /\ unbound sc x /\ withs sc <> [])) ->
  (forall dg, watched (d_kind dg) = true -> (d_kind dg <> DK_ExtraWith \/ cohw) -> In dg (v_diags s') <-> In dg (v_diags s) \/ emits sc n dg) ->
  post (UE e sc (visit sc n)) (visit sc n) (DV sc n) s s' /\ good s'.
Proof.
  intros V Rp G Et Hd E2 E3 E4 E5 HR HRd E6 HW HD.
  assert (Hdef : forall d y, defn s d y -> exists us, defn s' d (VDef (df_syn y) (df_src y) us)).
  { intros d y Y. destruct (Hd d y Y) as (us & Q & _). eauto. }
  assert (Vis : forall a c, visit sc n a c <-> only sc n a c).
  { intros a c. unfold only. split; [intros Q; apply (visit_var _ _ _ _ (proj1 V)) in Q; tauto|intros [-> ->]; constructor]. }
  assert (HU : forall d u, UE e sc (visit sc n) d u <-> u = nid n /\ fst (walk x e) = Some d).
  { intros d u. split.
    - intros (s1 & v & y & pre & Q & Vy & <- & E & U & Wk). apply Vis in Q as [-> ->].
      assert (y = x) by (destruct Vy, V; congruence). subst. auto.
    - intros [-> Wk]. exists sc, n, x, []. repeat split; auto; [constructor|apply V|apply V|intros ? []]. }
  split.
  2:{ destruct G as [G1 G2]. unfold good. rewrite E2. split; auto. intros k d H. destruct (G1 k d H) as (y & Y & Q).
      destruct (Hdef d y Y) as (us & Y'). eauto. }
  apply (post_ext _ (UE e sc (visit sc n)) (only sc n) (emits sc n)); [tauto|intros; now rewrite Vis| |].
  { intros d. unfold DV. split.
    - intros Q. exists sc, n. split; auto. constructor.
    - intros (s1 & m & Q & [Em|Hi]); apply Vis in Q as [-> ->]; auto.
      exfalso. destruct V as [Kv _]. destruct Hi; subst; discriminate Kv. }
  unfold only.
  constructor; rewrite ?E2, ?E3; try tauto; try (now intros; left); auto.
  - lia.
  - intros d y y' Y Sy Y' u. rewrite HU. destruct (Hd d y Y) as (us & Q & Qu). rewrite (defn_fun _ _ _ _ Y' Q). simpl.
    rewrite Qu. split; [intros [|[-> [|(_ & w & _ & F)]]]; auto|tauto].
    exfalso. destruct (proj1 G _ _ F) as (z & Z & Sz). apply Sy. now rewrite (defn_fun _ _ _ _ Y Z).
  - intros sc0 w [-> ->] H. destruct V. congruence.
  - intros sc0 m w [-> ->] H. destruct (rep_withs _ _ _ _ Rp H) as (_ & d & y & Q & _). eauto.
  - intros k d y' H Y' u. destruct (proj1 G _ _ H) as (y & Y & Sy). destruct (Hd d y Y) as (us & Q & Qu).
    rewrite (defn_fun _ _ _ _ Y' Q). simpl. rewrite Qu. split.
    + intros [I|[-> [Wk|(Ux & w & I & F)]]]; [left; eauto| |].
      * destruct (rep_lt _ _ _ _ _ Rp Wk) as (_ & z & Z & Nz). elim Nz. now rewrite (defn_fun _ _ _ _ Z Y).
      * right. exists sc, n, x, w. repeat split; auto; try apply V. eapply (proj2 G); eauto.
    + intros [(z & _ & Z & I)|(sc1 & v & z & w & [-> ->] & Vz & <- & Uz & I & <-)].
      * left. now rewrite (defn_fun _ _ _ _ Y Z).
      * right. split; auto. right. assert (z = x) by (destruct Vz, V; congruence). subst. split; eauto.
  - intros d y H Y'. apply defn_lt in Y'. lia.
  - intros d y H Y'. apply defn_lt in Y'. lia.
  - intros u r' H. rewrite E5, nfind_insert_new in H. destruct (nfind u (v_res s)); [now left|].
    destruct (Nat.eqb_spec u (nid n)); [|discriminate]. injection H as <-. right. exists sc, n, x.
    split; auto. split; auto. split; auto. eapply res_ok_mono; [| |exact HR]; auto. now rewrite E2.
  - intros u r' H. rewrite E5. now apply insert_new_old.
  - intros sc1 v y [-> ->] _. rewrite E5. apply insert_new_this.
  - intros u l H. rewrite E6 in H. destruct HW as [[-> _]|(-> & Ux & Nw)]; [now left|].
    rewrite nfind_insert_new in H. destruct (nfind u (v_ws s)); [now left|].
    destruct (Nat.eqb_spec u (nid n)); [|discriminate]. injection H as <-. right. exists sc, n, x. auto 8.
  - intros u l H. rewrite E6. destruct HW as [[-> _]|(-> & _)]; auto. now apply insert_new_old.
  - intros sc1 v y [-> ->] Vy Uy Nw. rewrite E6. assert (y = x) by (destruct Vy, V; congruence). subst y.
    destruct HW as [[_ [Q|Q]]|(-> & _)]; try contradiction. apply insert_new_this.
  - intros k e' H. rewrite E4 in H. apply env_case in H as [H|[<- ->]]; [now left|right]. exists sc, n.
    split; auto. split; auto. eapply rep_mono'; [| |exact Rp]; auto. now rewrite E2.
  - intros. rewrite E4. now apply insert_new_old.
  - intros sc0 m [-> ->]. rewrite E4. apply insert_new_this.
  - intros sc0 m who names [-> ->] Q. destruct V as [V _]. destruct n; discriminate.
  - intros u d H. rewrite E5, nfind_insert_new in H. destruct (nfind u (v_res s)); [now left|].
    destruct (Nat.eqb_spec u (nid n)) as [->|]; [|discriminate]. injection H as ->. right.
    pose proof (HRd d eq_refl) as Wk. destruct (rep_lt _ _ _ _ _ Rp Wk) as (_ & y & Y & Ny).
    destruct (Hd d y Y) as (us & Q & Qu). eexists. split; [exact Q|]. split; [exact Ny|]. apply Qu. auto.
Qed.

Lemma with_loop u ws : forall s r s', vfor (fun f => let? d := withDef (synId f) in usedBy d u) ws s = Ok (r, s') ->
  v_diags s' = v_diags s /\ v_with s' = v_with s /\ v_todef s' = v_todef s /\ v_envs s' = v_envs s /\
  v_res s' = v_res s /\ v_ws s' = v_ws s /\ total s' = total s /\
  forall d y, defn s d y -> exists us, defn s' d (VDef (df_syn y) (df_src y) us) /\
    forall u', In u' us <-> In u' (df_uses y) \/ (u' = u /\ exists f, In f ws /\ nfind (synId f) (v_with s) = Some d).
Proof.
  induction ws as [|f ws IH]; intros s r s' H; simpl in H.
  - vinv H. do 7 (split; [auto|]). intros d y Y. exists (df_uses y). split; [now destruct y|]. simpl. firstorder.
  - vinv H. vinv H0. unfold withDef in H1. destruct (nfind (synId f) (v_with s)) as [d0|] eqn:F; [|discriminate].
    injection H1 as <- <-. injection H0 as <- <-. apply IH in H. simpl in H.
    destruct H as (A1 & A2 & A3 & A4 & A5 & A6 & A7 & A8). do 6 (split; [auto|]).
    split; [unfold total in *; simpl in *; rewrite A7; apply addUse_length|].
    intros d y Y. unfold defn in A8. simpl in A8.
    specialize (A8 d (if Nat.eqb d d0 then VDef (df_syn y) (df_src y) (df_uses y ++ [u]) else y)).
    rewrite addUse_nth in A8. unfold defn in Y. rewrite Y in A8. specialize (A8 eq_refl).
    destruct A8 as (us & Q & Qu). exists us. split.
    + unfold defn. rewrite Q. destruct (Nat.eqb d d0); reflexivity.
    + intros u'. rewrite Qu. destruct (Nat.eqb_spec d d0) as [->|N]; simpl.
      * rewrite in_app_iff. simpl. firstorder congruence.
      * split.
        -- intros [|[-> (g & I & E)]]; [auto|right; split; auto; exists g; auto].
        -- intros [|[-> (g & [<-|I] & E)]]; [auto|congruence|right; split; auto; exists g; auto].
Qed.

Lemma var_ok n e sc s r s' : kind_of n = NK_ExprVar -> rep s sc e -> good s ->
  lookupVar primops n e (entered n e s) = Ok (r, s') ->
  post (UE e sc (visit sc n)) (visit sc n) (DV sc n) s s' /\ good s'.
Proof.
  intros K Rp G H. set (x := varName n). assert (V : is_var n x) by now split.
  unfold lookupVar in H. fold x in H.
  destruct (walk x e) as [[d|] ws] eqn:Wk.
  - vinv H. injection H0 as <- <-. injection H as <- <-.
    destruct (walk_some _ _ _ _ _ _ Rp Wk) as (l & t & y0 & Bd & Y0 & N0 & M0).
    assert (Nub : ~ unbound sc x) by (intros U; eapply bound_unbound; eauto).
    eapply (post_var n e sc x s _ (Defined d)); try reflexivity; auto.
    + unfold total. simpl. apply addUse_length.
    + intros d' y Y. unfold defn in *. cbn [v_defs]. rewrite addUse_nth. simpl. rewrite Y. destruct (Nat.eqb_spec d' d) as [->|N].
      * exists (df_uses y ++ [nid n]). split; auto. intros u. rewrite in_app_iff. simpl. rewrite Wk. simpl.
        intuition congruence.
      * exists (df_uses y). split; [now destruct y|]. intros u. rewrite Wk. simpl. intuition congruence.
    + simpl. exists l, t. split; auto. exists y0. auto.
    + intros d' Q. injection Q as <-. now rewrite Wk.
    + simpl. intros dg Kd _. split; [auto|]. intros [|Em]; auto. exfalso. inversion Em; subst.
      * apply Nub. replace x with x0; [auto|]. destruct H, V; congruence.
      * apply Nub. replace x with x0; [auto|]. destruct H, V; congruence.
      * destruct n; discriminate.
      * destruct n; discriminate.
      * discriminate.
  - destruct (walk_none _ _ _ _ _ Rp Wk) as [Ux Mw].
    assert (Hop : forall l, opens n <> Some l) by (intros l; destruct n; discriminate).
    destruct ws as [|f ws].
    + assert (Nw : withs sc = []) by (destruct (withs sc); [auto|discriminate]).
      assert (Em : forall dg, emits sc n dg <->
        (lookup x = NotFound /\ dg = d_arg x (diag0 DK_UndefinedVariable (nrange n))) \/
        (lookup x = PrefixedFound /\ dg = d_fix (Fix_ (b "use `builtins.` prefix") [TEdit (point (nl n)) (b "builtins.")])
                      (diag0 DK_PrimOpNeedsPrefix (nrange n)))).
      { intros dg. split.
        - intros Q. inversion Q; subst; try (elim (Hop _ H0)); try (elim (Hop _ H1)).
          + assert (x0 = x) by (destruct H0, V; congruence). subst. auto.
          + assert (x0 = x) by (destruct H0, V; congruence). subst. auto.
          + discriminate.
        - intros [[E ->]|[E ->]]; [now apply em_undef|eapply em_prefix; eauto]. }
      assert (Hs : forall d y, defn s d y -> exists us, defn s d (VDef (df_syn y) (df_src y) us) /\
         forall u, In u us <-> In u (df_uses y) \/ (u = nid n /\ (fst (walk x e) = Some d \/
        (unbound sc x /\ exists w, In w (withs sc) /\ nfind (nid w) (v_with s) = Some d)))).
      { intros d y Y. exists (df_uses y). split; [now destruct y|]. intros u. rewrite Wk, Nw. simpl. firstorder congruence. }
      destruct (lookup x) eqn:L; [discriminate| |].
      * vinv H. apply vlift_ok in H0 as [He ->]. apply mkEdit_ok in He. subst a. vinv H. injection H0 as <- <-. injection H as <- <-.
        eapply (post_var n e sc x s _ Undefined); try reflexivity; auto.
        -- simpl. auto.
        -- discriminate.
        -- simpl. intros dg Kd _. rewrite Em.
           split; [intros [<-|]; auto 6|intros [|[[E ->]|[E ->]]]; auto; discriminate].
      * vinv H. injection H0 as <- <-. injection H as <- <-.
        eapply (post_var n e sc x s _ Undefined); try reflexivity; auto.
        -- simpl. auto.
        -- discriminate.
        -- simpl. intros dg Kd _. rewrite Em.
           split; [intros [<-|]; auto 6|intros [|[[E ->]|[E ->]]]; auto; discriminate].
    + assert (Nw : withs sc <> []) by (destruct (withs sc); discriminate).
      assert (Ms : map synId (f :: ws) = map nid (withs sc)).
      { assert (forall l l', map fr_syn l = map Some l' -> map synId l = map nid l') as Q.
        { induction l as [|g l IH]; destruct l' as [|w l']; simpl; intros E; try discriminate; auto.
          injection E as E1 E2. unfold synId at 1. rewrite E1. f_equal. auto. }
        now apply Q. }
      vinv H. apply with_loop in H0. simpl in H0. destruct H0 as (A1 & A2 & A3 & A4 & A5 & A6 & A7 & A8).
      vinv H. injection H0 as <- <-. vinv H. unfold withDef in H0. simpl in H0.
      destruct (nfind (synId (last (f :: ws) f)) (v_with s1)) as [dl|] eqn:F; [|simpl in F; rewrite F in H0; discriminate].
      simpl in F. rewrite F in H0. injection H0 as <- <-. injection H as <- <-.
      eapply (post_var n e sc x s _ (FromWith dl)); simpl; rewrite ?A1, ?A2, ?A3, ?A4, ?A5, ?A6; try reflexivity; auto.
      * intros d y Y. destruct (A8 d y Y) as (us & Q & Qu). exists us. split; auto. intros u. rewrite Qu, Wk. simpl.
        assert (forall d, (exists g, In g (f :: ws) /\ nfind (synId g) (v_with s) = Some d) <->
                     exists w, In w (withs sc) /\ nfind (nid w) (v_with s) = Some d) as Eq.
        { intros d1. split.
          - intros (g & I & E). assert (In (synId g) (map nid (withs sc))) as J by (rewrite <- Ms; now apply in_map).
            apply in_map_iff in J as (w & Ew & J). exists w. rewrite Ew. auto.
          - intros (w & I & E). assert (In (nid w) (map synId (f :: ws))) as J by (rewrite Ms; now apply in_map).
            apply in_map_iff in J as (g & Eg & J). exists g. rewrite Eg. auto. }
        rewrite <- Eq. intuition congruence.
      * split; auto. destruct (exists_last Nw) as (l & w & El). exists l, w. split; auto.
        assert (synId (last (f :: ws) f) = nid w) as <-.
        { assert (Ms' : map synId (f :: ws) = map nid l ++ [nid w]) by (rewrite Ms, El, map_app; reflexivity).
          destruct (exists_last (l:=f :: ws)) as (l2 & g & El2); [discriminate|]. rewrite El2 in Ms' |- *.
          rewrite map_app in Ms'. simpl in Ms'. apply app_inj_tail in Ms' as [_ Ms']. now rewrite last_last. }
        now rewrite <- A2.
      * discriminate.
      * right. rewrite <- Ms. auto.
      * intros dg Kd _. split; [auto|]. intros [|Em]; auto. exfalso. inversion Em; subst; try (elim (Hop _ H)); try contradiction.
        discriminate.
Qed.

Lemma opens_roles n who names x nd role : opens n = Some (Binds who names) -> In (x, (nd, role)) names ->
  role <> DS_Builtin /\ role <> DS_With.
Proof.
  assert (F : forall src st, src <> DS_Builtin -> src <> DS_With -> In (x, (nd, role)) (fields_of src st) -> role <> DS_Builtin /\ role <> DS_With).
  { intros src st A B I. unfold fields_of in I. apply in_map_iff in I as (p & Ep & _). injection Ep as <- <- <-. auto. }
  intros O I. destruct n; try discriminate O; simpl in O.
  - destruct rc; [|discriminate]. injection O as <- <-. eapply F; [| |exact I]; discriminate.
  - destruct attrs as [a|]; [destruct a|]; injection O as <- <-; try contradiction. eapply F; [| |exact I]; discriminate.
  - destruct attrs as [a|]; [|discriminate]. destruct a; try discriminate. destruct rc; [|discriminate]. injection O as <- <-.
    eapply F; [| |exact I]; discriminate.
  - destruct arg as [a|]; [|discriminate]. destruct body; [|discriminate]. injection O as <- <-.
    destruct a; try contradiction. cbn [params] in I.
    destruct formals as [f|]; [destruct f; try (destruct ident; contradiction)|].
    + assert (G : forall l, In (x, (nd, role)) (flat_map
        (fun p => match find (fun m : node => Nat.eqb (nid m) (snd p)) members with
                  | Some (NFormal _ _ _ (Some q) _ _) =>
                      [(fst p, (q, match ident with Some _ => DS_LambdaWithArg_Formal | None => DS_LambdaNoArg_Formal end))]
                  | _ => [] end) l) -> role <> DS_Builtin /\ role <> DS_With).
      { intros l J. apply in_flat_map in J as (p & _ & J). destruct (find _ _) as [g|]; [|contradiction].
        destruct g; try contradiction. destruct ident0; [|contradiction]. destruct J as [J|[]]. injection J as <- <- <-.
        destruct ident; split; discriminate. }
      destruct ident; [|exact (G _ I)]. apply in_app_iff in I as [I|I]; [|exact (G _ I)].
      destruct (existsb _ _); [contradiction|]. destruct I as [I|[]]. injection I as <- <- <-. split; discriminate.
    + destruct ident; [|contradiction]. destruct I as [I|[]]. injection I as <- <- <-. split; discriminate.
Qed.

(** entering a `with` *)
Lemma withStart_ok n kw e sc s r s' : kind_of n = NK_ExprWith -> (exists i r semi we e, n = NWith i r kw semi we e) -> rep s sc e -> good s ->
  withStart n kw (entered n e s) = Ok (r, s') ->
  post none2 (only sc n) none1 s s' /\ good s' /\ lrep s' (WithOf n) (Frame [] (Some n)).
Proof.
  intros K En Rp G H. unfold withStart in H. vinv H. injection H0 as <- <-. simpl in H.
  assert (Hv : forall x, ~ is_var n x) by (intros x [Q _]; congruence).
  destruct (nfind (nid n) (v_with s)) as [d0|] eqn:F.
  - vinv H. split; [|split; [exact G|]].
    2:{ simpl. split; auto. split; auto. destruct (proj1 G _ _ F) as (y & Y & Q). exists d0, y. auto. }
    unfold none2, only, none1.
    constructor; simpl; try tauto; try (now intros; left); auto.
    + intros d x H. exists (df_uses x). now destruct x.
    + intros d x x' H _ H'. rewrite (defn_fun _ _ _ _ H H'). tauto.
    + intros sc0 w [-> ->] _. eauto.
    + intros sc0 m w [-> ->] H. destruct (rep_withs _ _ _ _ Rp H) as (_ & d & y & Q & _). eauto.
    + intros k d x' H H' u. split; [intros; left; eauto|].
      intros [(x & _ & E & I)|(? & ? & y & ? & [-> ->] & V & _)]; [|now elim (Hv y)].
      now rewrite (defn_fun _ _ _ _ H' E).
    + intros d x H H'. apply defn_lt in H'. unfold total in *. simpl in H'. lia.
    + intros d x H H'. apply defn_lt in H'. unfold total in *. simpl in H'. lia.
    + intros sc0 v x [-> ->] V. now elim (Hv x).
    + intros sc0 v x [-> ->] V. now elim (Hv x).
    + intros k e' H. apply env_case in H as [H|[<- ->]]; [now left|right]. exists sc, n. auto.
    + intros. now apply insert_new_old.
    + intros sc0 m [-> ->]. apply insert_new_this.
    + intros sc0 m who names [-> ->] Q. destruct n; discriminate.
  - vinv H. injection H0 as <- <-. vinv H. injection H0 as <- <-. injection H as <- <-. simpl.
    match goal with |- post _ _ _ _ ?q /\ _ => set (s' := q) end.
    assert (T : total s' = S (total s)) by (unfold total; simpl; rewrite app_length; simpl; lia).
    assert (Hdef : forall d x, defn s d x -> defn s' d x).
    { unfold defn. simpl. intros d x Q. rewrite nth_error_app1; auto. apply nth_error_Some. congruence. }
    assert (Hnew : defn s' (total s) (VDef (Some kw) DS_With [])).
    { unfold defn, total. simpl. rewrite nth_error_app2, Nat.sub_diag; auto. }
    assert (Hcase : forall d x, defn s' d x -> defn s d x \/ (d = total s /\ x = VDef (Some kw) DS_With [])).
    { intros d x Q. pose proof (defn_lt _ _ _ Q). destruct (Nat.eq_dec d (total s)) as [->|N].
      - right. split; auto. eapply defn_fun; eauto.
      - left. destruct (defn_ex s d) as [y Y]; [lia|]. rewrite (defn_fun _ _ _ _ Q (Hdef _ _ Y)). auto. }
    assert (Hw : forall k d, nfind k (v_with s') = Some d -> (k = nid n /\ d = total s) \/ (k <> nid n /\ nfind k (v_with s) = Some d)).
    { simpl. intros k d. destruct (Nat.eqb_spec k (nid n)); intros Q; [injection Q as <-|]; auto. }
    assert (Hmono : forall d x, defn s d x -> exists us, defn s' d (VDef (df_syn x) (df_src x) us)).
    { intros d x Q. exists (df_uses x). apply Hdef. now destruct x. }
    assert (Hwm : forall k d, nfind k (v_with s) = Some d -> nfind k (v_with s') = Some d).
    { simpl. intros k d Q. destruct (Nat.eqb_spec k (nid n)); [congruence|auto]. }
    split; [|split].
    + unfold none2, only, none1.
      constructor; try tauto; try (now intros; left); auto.
      * lia.
      * intros d x x' H _ H'. rewrite (defn_fun _ _ _ _ (Hdef _ _ H) H'). tauto.
      * intros k d H. apply Hw in H as [[-> ->]|[_ H]]; [|now left]. right. split; auto. exists sc, n. auto.
      * intros sc0 w [-> ->] _. simpl. rewrite Nat.eqb_refl. eauto.
      * intros sc0 m w [-> ->] H. destruct (rep_withs _ _ _ _ Rp H) as (_ & d & y & Q & _). eauto.
      * intros k d x' H H' u. split.
        -- intros I. apply Hcase in H' as [H'|[-> ->]]; [|destruct I].
           apply Hw in H as [[-> ->]|[_ H]]; [apply defn_lt in H'; lia|]. left. eauto.
        -- intros [(x & Q & E & I)|(? & ? & y & ? & [-> ->] & V & _)]; [|now elim (Hv y)].
           rewrite (defn_fun _ _ _ _ H' (Hdef _ _ E)). auto.
      * intros d x H H' N. apply Hcase in H' as [H'|[-> ->]]; [apply defn_lt in H'; lia|]. now elim N.
      * intros d x H H' N. apply Hcase in H' as [H'|[-> ->]]; [apply defn_lt in H'; lia|].
        destruct En as (i0 & r0 & semi0 & we0 & e0 & En).
        exists sc, i0, r0, kw, semi0, we0, e0. split; [auto|]. split; [|reflexivity]. simpl. rewrite En. simpl.
        now rewrite Nat.eqb_refl.
      * simpl. intros k d. destruct (Nat.eqb_spec k (nid kw)) as [->|N]; [|now left]. intros Q. injection Q as <-. right.
        split; auto. exists (VDef (Some kw) DS_With []), kw. auto.
      * intros sc0 v x [-> ->] V. now elim (Hv x).
      * intros sc0 v x [-> ->] V. now elim (Hv x).
      * intros k e' H. apply env_case in H as [H|[<- ->]]; [now left|right]. exists sc, n. split; auto. split; auto.
        eapply rep_mono'; eauto.
      * intros. simpl. now apply insert_new_old.
      * intros sc0 m [-> ->]. simpl. apply insert_new_this.
      * intros sc0 m who names [-> ->] Q. destruct n; discriminate.
    + split.
      * intros k d H. apply Hw in H as [[-> ->]|[_ H]]; [eexists; split; [exact Hnew|auto]|].
        destruct (proj1 G _ _ H) as (y & Y & Q). eauto.
      * intros k k' d H H'. apply Hw in H as [[-> ->]|[_ H]]; apply Hw in H' as [[-> E]|[_ H']]; auto.
        -- exfalso. destruct (proj1 G _ _ H') as (y & Y & _). apply defn_lt in Y. lia.
        -- exfalso. subst d. destruct (proj1 G _ _ H) as (y & Y & _). apply defn_lt in Y. lia.
        -- eapply (proj2 G); eauto.
    + simpl. split; auto. split; auto. rewrite Nat.eqb_refl. exists (total s), (VDef (Some kw) DS_With []). auto.
Qed.

(** entering a node that opens a layer, then working under it *)
Lemma post_open n e sc s who names m s1 U W D s2 :
  kind_of n <> NK_ExprVar -> kind_of n <> NK_ExprWith -> rep s sc e -> good s ->
  opens n = Some (Binds who names) ->
  adds names [] (entered n e s) m s1 ->
  post U W D s1 s2 ->
  (forall i x nd src, nth_error names i = Some (x, (nd, src)) -> forall u, U (total s + i) u <-> used sc n (Binds who names) x u) ->
  post (fun d u => d < total s /\ U d u) (or2 (only sc n) W) D s s2.
Proof.
  intros K1 K2 Rp G O Ad P HU.
  destruct (adds_facts _ _ _ _ _ Ad) as (F1 & F2 & F3 & F4 & F5 & F6 & F7 & _).
  simpl in F1, F2, F3, F4, F5, F6, F7. change (total (entered n e s)) with (total s) in F6.
  assert (T : total s1 = total s + List.length names) by (unfold total; rewrite F1, app_length, map_length; lia).
  assert (Hdef : forall d x, defn s d x -> defn s1 d x).
  { unfold defn. rewrite F1. intros d x Q. rewrite nth_error_app1; auto. apply nth_error_Some. congruence. }
  assert (Hnew : forall i x nd src, nth_error names i = Some (x, (nd, src)) -> defn s1 (total s + i) (VDef (Some nd) src [])).
  { intros i x nd src Q. unfold defn, total. rewrite F1, nth_error_app2 by lia.
    replace (List.length (v_defs s) + i - List.length (v_defs s)) with i by lia.
    rewrite (map_nth_error _ _ _ Q). reflexivity. }
  assert (Hv : forall x, ~ is_var n x) by (intros x [Q _]; congruence).
  assert (Hmono : forall d x, defn s d x -> exists us, defn s1 d (VDef (df_syn x) (df_src x) us)).
  { intros d x Q. exists (df_uses x). apply Hdef. now destruct x. }
  assert (Rp1 : rep s1 sc e) by (eapply rep_mono'; [exact Hmono|now rewrite F2|exact Rp]).
  pose proof (rep_post _ _ _ _ _ _ _ _ P Rp1) as Rp2.
  destruct P. unfold or2, only.
  constructor; auto.
  - lia.
  - intros d x x' H Hs H' u. rewrite (po_uses d x x' (Hdef _ _ H) Hs H' u). apply defn_lt in H. tauto.
  - intros k d H. apply po_with. now rewrite F2.
  - intros k d H. destruct (po_withnew k d H) as [Q|(L & sc1 & w & Q & Q')].
    + rewrite F2 in Q. now left.
    + right. split; [lia|]. exists sc1, w. auto.
  - intros sc1 w [[-> ->]|H] Kw; [contradiction|eauto].
  - intros sc1 v w [[-> ->]|H] I; [|eauto]. destruct (rep_withs _ _ _ _ Rp2 I) as (_ & d & y & Q & _). eauto.
  - intros k d x' H H' u. rewrite (po_wuses k d x' H H' u). rewrite F2. split.
    + intros [(x & Q & X & I)|(sc1 & v & y & w & Q & Q')].
      * left. exists x. split; auto. split; auto. destruct (proj1 G _ _ Q) as (z & Z & _).
        rewrite (defn_fun _ _ _ _ X (Hdef _ _ Z)). auto.
      * right. exists sc1, v, y, w. auto.
    + intros [(x & Q & X & I)|(sc1 & v & y & w & [[-> ->]|Q] & Q')].
      * left. exists x. auto.
      * destruct Q' as [V _]. now elim (Hv y).
      * right. exists sc1, v, y, w. auto.
  - intros d x H H' Hs. destruct (Nat.lt_ge_cases d (total s1)) as [L|L].
    + set (i := d - total s). destruct (nth_error names i) as [[y [nd src]]|] eqn:Q.
      2:{ apply nth_error_None in Q. lia. }
      pose proof (Hnew _ _ _ _ Q) as X. replace (total s + i) with d in X by lia.
      destruct (po_def _ _ X) as [us X']. simpl in X'. rewrite (defn_fun _ _ _ _ H' X') in *. simpl in *.
      exists sc, n, who, names, y, nd. split; auto. split; auto. split; auto.
      split; [eapply nth_error_In; eauto|]. intros u. rewrite <- (HU i y nd src Q u).
      replace (total s + i) with d by lia. pose proof (po_uses d _ _ X Hs X' u) as Z. simpl in Z. tauto.
    + destruct (po_new d x L H' Hs) as (sc1 & n1 & who1 & names1 & y & nd & Q & Q'). exists sc1, n1, who1, names1, y, nd. auto.
  - intros d x H H' Hs. destruct (Nat.lt_ge_cases d (total s1)) as [L|L].
    + exfalso. set (i := d - total s). destruct (nth_error names i) as [[y [nd src]]|] eqn:Q.
      2:{ apply nth_error_None in Q. lia. }
      pose proof (Hnew _ _ _ _ Q) as X. replace (total s + i) with d in X by lia.
      destruct (po_def _ _ X) as [us X']. simpl in X'. rewrite (defn_fun _ _ _ _ H' X') in Hs. simpl in Hs.
      apply nth_error_In in Q. now apply (opens_roles _ _ _ _ _ _ O Q).
    + destruct (po_wdef d x L H' Hs) as (sc1 & i & r & kw & semi & we & e1 & Q & Q'). exists sc1, i, r, kw, semi, we, e1. auto.
  - intros k d H. destruct (po_todef k d H) as [Q|(L & x & nd & X & Y)].
    + destruct (F6 k d Q) as [|(i & x & nd & src & -> & Q1 & Q2)]; [now left|right]. split; [lia|].
      pose proof (Hnew _ _ _ _ Q1) as X. destruct (po_def _ _ X) as [us X']. simpl in X'.
      eexists; exists nd; split; [exact X'|auto].
    + right. split; [lia|]. eauto.
  - intros u r H. destruct (po_res u r H) as [Q|(sc1 & v & x & Q & Q')].
    + left. now rewrite <- F3.
    + right. exists sc1, v, x. auto.
  - intros u r H. apply po_resold. now rewrite F3.
  - intros sc1 v x [[-> ->]|H] V; [now elim (Hv x)|eauto].
  - intros u r H. destruct (po_ws u r H) as [Q|(sc1 & v & x & Q & Q')].
    + left. now rewrite <- F4.
    + right. exists sc1, v, x. auto.
  - intros u r H. apply po_wsold. now rewrite F4.
  - intros sc1 v x [[-> ->]|H] V; [now elim (Hv x)|eauto].
  - intros k e' H. destruct (po_env k e' H) as [Q|(sc1 & v & Q & Q')].
    + rewrite F5 in Q. apply env_case in Q as [Q|[<- ->]]; [now left|]. right. exists sc, n. auto.
    + right. exists sc1, v. auto.
  - intros k e' H. apply po_envold. rewrite F5. now apply insert_new_old.
  - intros sc1 v [[-> ->]|H]; [|eauto]. destruct (insert_new_this (nid n) e (v_envs s)) as [e' Q].
    exists e'. apply po_envold. now rewrite F5.
  - intros dg H H'. rewrite (po_diag dg H H'). now rewrite F7.
  - intros sc1 v who1 names1 [[-> ->]|H] Q; [|eauto]. rewrite O in Q. injection Q as <- <-. eapply adds_nodup. exact Ad.
  - intros u d H. destruct (po_resuse u d H) as [Q|Q]; [|now right]. left. now rewrite <- F3.
Qed.

(** ** running the analysis on several parts *)
Inductive runs : list (env * node) -> vst -> vst -> Prop :=
| runs_nil s : runs [] s s
| runs_cons e n l s s1 s2 : dfs primops n e s = Ok (tt, s1) -> runs l s1 s2 -> runs ((e, n) :: l) s s2.
Lemma runs_app l1 l2 s s1 s2 : runs l1 s s1 -> runs l2 s1 s2 -> runs (l1 ++ l2) s s2.
Proof. induction 1; simpl; auto. intros. econstructor; eauto. Qed.
Lemma runs_one e n s r s' : dfs primops n e s = Ok (r, s') -> runs [(e, n)] s s'.
Proof. destruct r. intros. econstructor; eauto. constructor. Qed.
Lemma vfor_runs {A} (f : A -> V unit) (g : A -> list (env * node)) :
  (forall x s r s', f x s = Ok (r, s') -> runs (g x) s s') ->
  forall l s r s', vfor f l s = Ok (r, s') -> runs (flat_map g l) s s'.
Proof.
  intros H. induction l as [|x l IH]; intros s r s' Q; simpl in Q; vinv Q; [constructor|].
  simpl. eapply runs_app; eauto.
Qed.
Lemma opt_runs e o s r s' : match o with Some m => dfs primops m e | None => vret tt end s = Ok (r, s') ->
  runs (map (pair e) (somes [o])) s s'.
Proof. destruct o; simpl; intros H; [eapply runs_one; eauto|vinv H; constructor]. Qed.

Definition okdfs (n : node) : Prop := forall e sc s s', R sc n -> good s -> hist s -> rep s sc e ->
  dfs primops n e s = Ok (tt, s') ->
  post (UE e sc (visit sc n)) (visit sc n) (DV sc n) s s' /\ good s'.

Definition U3 (l : list (env * scope * node)) : nat -> nat -> Prop := fun d u =>
  exists e sc n, In (e, sc, n) l /\ UE e sc (visit sc n) d u.
Definition W3 (l : list (env * scope * node)) : scope -> node -> Prop := fun s m =>
  exists e sc n, In (e, sc, n) l /\ visit sc n s m.
Definition D3 (l : list (env * scope * node)) : diag -> Prop := fun dg =>
  exists e sc n, In (e, sc, n) l /\ DV sc n dg.
Definition strip (t : env * scope * node) : env * node := (fst (fst t), snd t).

Lemma UE_lt st e sc W d u : rep st sc e -> UE e sc W d u -> d < total st.
Proof. intros Rp (s1 & v & y & pre & _ & _ & _ & _ & _ & Wk). now apply (rep_lt _ _ _ _ _ Rp) in Wk. Qed.

Lemma runs_ok l : (forall e sc n, In (e, sc, n) l -> okdfs n /\ R sc n) ->
  forall s s', runs (map strip l) s s' -> good s -> hist s -> (forall e sc n, In (e, sc, n) l -> rep s sc e) ->
  post (U3 l) (W3 l) (D3 l) s s' /\ good s'.
Proof.
  induction l as [|[[e sc] n] l IH]; intros HI s s' Hr G Hh Rp.
  - inversion Hr; subst. split; auto. eapply post_ext; [| | |apply post_refl]; unfold none2, none1, U3, W3, D3; firstorder.
  - assert (exists s2, dfs primops n e s = Ok (tt, s2) /\ runs (map strip l) s2 s') as (s2 & H3 & H5)
      by (inversion Hr; subst; eauto). clear Hr.
    destruct (HI e sc n (or_introl eq_refl)) as [Ok1 R1].
    destruct (Ok1 e sc s s2 R1 G Hh (Rp _ _ _ (or_introl eq_refl)) H3) as [P1 G1].
    assert (Hh1 : hist s2). { eapply hist_post; eauto. intros sc1 n1 V. eapply visit_trans; eauto. }
    destruct (IH (fun e sc n I => HI e sc n (or_intror I)) s2 s' H5 G1 Hh1) as [P2 G2].
    { intros e1 sc1 n1 I. eapply rep_post; eauto. apply (Rp _ _ _ (or_intror I)). }
    split; auto. eapply post_ext; [| | |eapply post_seq; [exact G1| |exact P1|exact P2]].
    + intros d u. unfold or2, U3. simpl. split.
      * intros [Q|(e1 & sc1 & n1 & I & Q)]; [exists e, sc, n|exists e1, sc1, n1]; auto.
      * intros (e1 & sc1 & n1 & [I|I] & Q); [injection I as -> -> ->; auto|right; exists e1, sc1, n1; auto].
    + intros d u. unfold or2, W3. simpl. split.
      * intros [Q|(e1 & sc1 & n1 & I & Q)]; [exists e, sc, n|exists e1, sc1, n1]; auto.
      * intros (e1 & sc1 & n1 & [I|I] & Q); [injection I as -> -> ->; auto|right; exists e1, sc1, n1; auto].
    + intros d. unfold or1, D3. simpl. split.
      * intros [Q|(e1 & sc1 & n1 & I & Q)]; [exists e, sc, n|exists e1, sc1, n1]; auto.
      * intros (e1 & sc1 & n1 & [I|I] & Q); [injection I as -> -> ->; auto|right; exists e1, sc1, n1; auto].
    + intros d u (e1 & sc1 & n1 & I & Q). eapply UE_lt; eauto. apply (Rp _ _ _ (or_intror I)).
Qed.
End A.
