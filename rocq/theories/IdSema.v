(** For C73: the semantic actions keep identities distinct. *)
From Coq Require Import Permutation.
From Verif Require Import Base Diag LexModel AstModel PSupModel SemaModel SemaSpec SemaProofs ParseSpec ParseTree IdTree.

(** what holds of the result and of the next identity when [m] is run with next identity [i] *)
Definition wpn {A} (m : P A) (i : nat) (Q : A -> nat -> Prop) : Prop :=
  forall s a s', pnid s = i -> m s = Ok (a, s') -> Q a (pnid s').
Definition keeps {A} (m : P A) : Prop := forall s a s', m s = Ok (a, s') -> pnid s' = pnid s.
Lemma wpn_ret {A} (a : A) i (Q : A -> nat -> Prop) : Q a i -> wpn (ret a) i Q.
Proof. intros H s a' s' E R. injection R as <- <-. now rewrite E. Qed.
Lemma wpn_bind {A C} (m : P A) (k : A -> P C) i Q : wpn m i (fun a j => wpn (k a) j Q) -> wpn (pbind m k) i Q.
Proof.
  intros H s a s' E R. unfold pbind in R. destruct (m s) as [[x s1]| |] eqn:F; try discriminate.
  exact (H s x s1 E F s1 a s' eq_refl R).
Qed.
Lemma wpn_crash {A} w i (Q : A -> nat -> Prop) : wpn (crash w) i Q.
Proof. intros s a s' _ R. discriminate. Qed.
Lemma wpn_fresh i (Q : nat -> nat -> Prop) : Q i (S i) -> wpn fresh i Q.
Proof. intros H s a s' E R. injection R as <- <-. cbn [pnid]. now rewrite E. Qed.
Lemma wpn_keeps {A} (m : P A) i (Q : A -> nat -> Prop) : keeps m -> (forall a, Q a i) -> wpn m i Q.
Proof. intros K H s a s' E R. rewrite (K _ _ _ R), E. apply H. Qed.
Lemma wpn_weak {A} (m : P A) i (Q R : A -> nat -> Prop) : wpn m i Q -> (forall a j, Q a j -> R a j) -> wpn m i R.
Proof. intros W H s a s' E F. apply H. exact (W s a s' E F). Qed.

Lemma k_ret {A} (a : A) : keeps (ret a).
Proof. intros s x s' H. now injection H as <- <-. Qed.
Lemma k_crash {A} w : keeps (@crash A w).
Proof. intros s x s' H. discriminate. Qed.
Lemma k_lift {A} (r : res A) : keeps (lift r).
Proof. intros s x s' H. unfold lift in H. destruct r; try discriminate. now injection H as <- <-. Qed.
Lemma k_emit d : keeps (emit d).
Proof. intros s x s' H. now injection H as <- <-. Qed.
Lemma k_bind {A C} (m : P A) (k : A -> P C) : keeps m -> (forall a, keeps (k a)) -> keeps (pbind m k).
Proof.
  intros H K s x s' R. unfold pbind in R. destruct (m s) as [[y s1]| |] eqn:F; try discriminate.
  rewrite (K _ _ _ _ R). eauto.
Qed.
Create HintDb keeps.
#[export] Hint Resolve k_ret k_crash k_lift k_emit : keeps.
Ltac K1 :=
  match goal with
  | |- keeps _ => solve [auto with keeps nocore]
  | |- keeps (pbind _ _) => apply k_bind; [|intros ?]
  | |- keeps (match ?x with _ => _ end) => destruct x
  | |- keeps (let _ := _ in _) => cbv zeta
  end.
Ltac K := repeat K1.
Lemma k_dup n r p : keeps (dupAttr n r p).
Proof. unfold dupAttr. K. Qed.
#[export] Hint Resolve k_dup : keeps.
Lemma k_checkRec x y : keeps (checkAttrRecursiveForMerge x y).
Proof. unfold checkAttrRecursiveForMerge. K. Qed.
#[export] Hint Resolve k_checkRec : keeps.
Lemma k_fix1 m e : keeps (fix1 m e).
Proof. unfold fix1. K. Qed.
#[export] Hint Resolve k_fix1 : keeps.

Ltac W1 :=
  match goal with
  | |- wpn (pbind _ _) _ _ => apply wpn_bind
  | |- wpn (ret _) _ _ => apply wpn_ret
  | |- wpn fresh _ _ => apply wpn_fresh
  | |- wpn (crash _) _ _ => apply wpn_crash
  | |- wpn _ _ _ => apply wpn_keeps; [solve [auto with keeps nocore]|intros ?]
  | |- wpn (match ?x with _ => _ end) _ _ => destruct x eqn:?
  | |- wpn (let _ := _ in _) _ _ => cbv zeta
  end.

(** * Tables *)
Definition tab (B : node -> Prop) (U : nat -> Prop) (st : smap) (dy : list attribute) : Prop :=
  sorted st /\ ForallOrdPairs okp (ents st dy) /\
  (forall a, In a (map snd st ++ dy) -> ok U (a_key a) /\ ok U (a_value a) /\ B (a_key a) /\ prov B (a_value a)).

Lemma prov_mono (B C : node -> Prop) : (forall x, B x -> C x) -> forall n, prov B n -> prov C n.
Proof.
  intros H. fix IH 2. intros n [m Bm|i r bd rc st dy O F|i r j s x Bx|i r p q ex name ds B1 B2].
  - apply prov_node. auto.
  - apply prov_set; [destruct O as [O|(st0 & dy0 & O)]; [auto|right; eauto]|].
    intros a Ia. destruct (F a Ia) as [F1 F2]. split; [auto|]. apply IH. exact F2.
  - apply prov_var. auto.
  - apply prov_sel; auto.
Qed.

Lemma sinsert_new x v st : sfind x st = None -> Permutation (sinsert x v st) ((x, v) :: st).
Proof.
  induction st as [|[y d] st IH]; cbn [sfind sinsert]; intros H; [reflexivity|]. destruct (bytes_eqb x y); [discriminate|].
  destruct (bytes_ltb x y); [reflexivity|]. rewrite (IH H). apply perm_swap.
Qed.
Lemma sinsert_old x v w st : sorted st -> sfind x st = Some w ->
  exists l m, st = l ++ (x, w) :: m /\ sinsert x v st = l ++ (x, v) :: m.
Proof.
  unfold sorted, increasing. induction st as [|[y d] st IH]; cbn [sfind sinsert map fst]; intros S H; [discriminate|].
  destruct (bytes_eqb x y) eqn:E.
  - apply beq_eq in E. subst y. injection H as ->. exists [], st. auto.
  - inversion S as [|? ? S' F]; subst. destruct (bytes_ltb x y) eqn:L.
    + apply sfind_in in H. exfalso. rewrite Forall_forall in F.
      assert (Q : In x (map fst st)) by (apply in_map_iff; now exists (x, w)). specialize (F _ Q).
      pose proof (ltb_trans _ _ _ L F) as Z. now rewrite ltb_irr in Z.
    + destruct (IH S' H) as (l & m & -> & ->). exists ((y, d) :: l), m. auto.
Qed.

Lemma ents_app st l dy : ents st dy ++ flat_map (fun a => [(AK_Plain, a_key a); (a_kind a, a_value a)]) l = ents st (dy ++ l).
Proof. unfold ents. now rewrite flat_map_app, app_assoc. Qed.
Lemma ents_in B U st dy k x : tab B U st dy -> In (k, x) (ents st dy) -> ok U x.
Proof.
  intros (_ & _ & F) I. unfold ents in I. apply in_app_or in I as [I|I].
  - apply in_map_iff in I as ([y a] & E & I). injection E as <- <-. apply F. apply in_or_app. left. apply in_map_iff. now exists (y, a).
  - apply in_flat_map in I as (a & Ia & [E|[E|[]]]); injection E as <- <-; apply F; apply in_or_app; auto.
Qed.
Lemma tab_weak (B C : node -> Prop) (U V : nat -> Prop) st dy :
  (forall x, B x -> C x) -> (forall i, U i -> V i) -> tab B U st dy -> tab C V st dy.
Proof.
  intros HB HU (A & F & T). split; [auto|split; [auto|]]. intros a I. destruct (T _ I) as (T1 & T2 & T3 & T4).
  split; [|split; [|split]]; auto; [eapply ok_weak; eauto|eapply ok_weak; eauto|eapply prov_mono; eauto].
Qed.
Lemma tab_nil B U : tab B U [] [].
Proof. split; [constructor|split; [constructor|contradiction]]. Qed.

Lemma tab_new B U x k key v st dy : tab B U st dy -> sfind x st = None -> ok U key -> ok U v -> B key -> prov B v ->
  (forall e, In e (ents st dy) -> okp (k, v) e) -> tab B U (sinsert x (k, key, v) st) dy.
Proof.
  intros (A & F & T) N Ok Ov Bk Pv Q. pose proof (sinsert_new x (k, key, v) st N) as Pm. split; [|split].
  - now apply sorted_sinsert.
  - apply (FOP_perm _ ((k, v) :: ents st dy)); [apply okp_sym| |].
    + unfold ents. rewrite Pm. reflexivity.
    + constructor; auto. now apply Forall_forall.
  - intros a I. apply in_app_or in I as [I|I]; [|apply T; apply in_or_app; auto].
    rewrite Pm in I. cbn [map snd] in I. destruct I as [<-|I]; auto. apply T. apply in_or_app. auto.
Qed.
Lemma tab_dyn B U k key v st dy : tab B U st dy -> ok U key -> ok U v -> B key -> prov B v -> wdisj key v ->
  (forall e, In e (ents st dy) -> wdisj (snd e) key /\ wdisj (snd e) v) -> tab B U st (dy ++ [(k, key, v)]).
Proof.
  intros (A & F & T) Ok Ov Bk Pv W Q. split; [auto|split].
  - rewrite <- ents_app. cbn [flat_map app]. apply FOP_app; auto.
    + constructor; [|repeat constructor]. constructor; [left; exact W|constructor].
    + intros e f I [<-|[<-|[]]]; left; cbn [snd a_key a_value fst]; now apply Q.
  - intros a I. rewrite app_assoc in I. apply in_app_or in I as [I|[<-|[]]]; auto.
Qed.
Lemma tab_change B (U V : nat -> Prop) x w v st dy : tab B U st dy -> sfind x st = Some w ->
  (forall i, U i -> V i) -> (forall i r e p d ds, a_value w <> NSelect i r e None p d ds) ->
  ok V v -> prov B v -> (forall i, wid v i -> wid (a_value w) i \/ ~ U i) ->
  tab B V (sinsert x (a_kind w, a_key w, v) st) dy.
Proof.
  intros (A & F & T) N UV Ns Ov Pv Q. destruct (sinsert_old x (a_kind w, a_key w, v) w st A N) as (l & m & E & ->). subst st.
  assert (Uw : forall k y, In (k, y) (ents (l ++ m) dy) -> inU U y).
  { intros k y I i Wi. assert (I' : In (k, y) (ents (l ++ (x, w) :: m) dy)).
    { unfold ents in *. rewrite map_app in *. cbn [map]. rewrite !in_app_iff in *. cbn [In]. tauto. }
    destruct (ents_in B U _ _ k y (conj A (conj F T)) I') as [O _]. now apply O. }
  split; [|split].
  - unfold sorted in *. rewrite map_app in *. exact A.
  - assert (Pm : forall z, Permutation ((a_kind z, a_value z) :: ents (l ++ m) dy) (ents (l ++ (x, z) :: m) dy)).
    { intros z. unfold ents. rewrite !map_app. cbn [map snd]. rewrite <- app_assoc. cbn [app]. rewrite <- app_assoc. apply Permutation_middle. }
    eapply FOP_perm; [apply okp_sym|apply Pm|]. cbn [a_kind a_value fst snd].
    eapply (FOP_perm okp) in F; [|apply okp_sym|symmetry; apply Pm]. inversion F as [|? ? F1 F2]; subst. constructor; auto.
    rewrite Forall_forall in *. intros [k y] I. specialize (F1 _ I). destruct F1 as [F1|(_ & _ & i1 & r1 & ex & p1 & d1 & ? & ? & ? & ? & E1 & _)].
    + left. cbn [snd] in *. intros i Wv Wy. apply Q in Wv as [Wv|Wv]; [now apply (F1 i)|]. elim Wv. now apply (Uw k y I).
    + cbn [snd] in E1. now apply Ns in E1.
  - intros a I.
    assert (T' : forall a, In a (map snd (l ++ (x, w) :: m) ++ dy) -> ok V (a_key a) /\ ok V (a_value a) /\ B (a_key a) /\ prov B (a_value a)).
    { intros c Ic. destruct (T c Ic) as (T1 & T2 & T3 & T4). split; [|split; [|split]]; auto; eapply ok_weak; eauto. }
    rewrite map_app in I, T'. cbn [map snd] in I, T'. apply in_app_or in I as [I|I]; [|apply T'; apply in_or_app; auto].
    apply in_app_or in I as [I|[<-|I]].
    + apply T'. apply in_or_app. left. apply in_or_app. auto.
    + cbn [a_key a_value fst snd]. destruct (T' w) as (T1 & T2 & T3 & T4); [apply in_or_app; left; apply in_or_app; right; now left|]. auto.
    + apply T'. apply in_or_app. left. apply in_or_app. right. now right.
Qed.

(** the table of a set *)
Lemma field_key i r bd rc st dy a : In a (map snd st ++ dy) -> In (a_key a) (fields (NAttrs i r bd rc st dy)).
Proof.
  intros I. unfold fields. apply in_or_app. right. apply in_app_or in I as [I|I].
  - apply in_map_iff in I as (p & <- & I). rewrite !in_app_iff. left. apply in_map_iff. now exists p.
  - rewrite !in_app_iff. right. right. left. apply in_map_iff. now exists a.
Qed.
Lemma field_value i r bd rc st dy a : In a (map snd st ++ dy) -> In (a_value a) (fields (NAttrs i r bd rc st dy)).
Proof.
  intros I. unfold fields. apply in_or_app. right. apply in_app_or in I as [I|I].
  - apply in_map_iff in I as (p & <- & I). rewrite !in_app_iff. right. left. apply in_map_iff. now exists p.
  - rewrite !in_app_iff. right. right. right. apply in_map_iff. now exists a.
Qed.
Lemma attrs_field i r bd rc st dy f : In f (fields (NAttrs i r bd rc st dy)) ->
  In f (optlist bd ++ optlist rc) \/ exists a, In a (map snd st ++ dy) /\ (f = a_key a \/ f = a_value a).
Proof.
  unfold fields. cbn [children]. rewrite !present_cons. cbn [present flat_map]. rewrite app_nil_r. intros I.
  apply in_app_or in I as [I|I]; auto. right. rewrite !in_app_iff in I.
  destruct I as [I|[I|[I|I]]]; apply in_map_iff in I as (p & <- & I).
  - exists (snd p). split; auto. apply in_or_app. left. apply in_map_iff. now exists p.
  - exists (snd p). split; auto. apply in_or_app. left. apply in_map_iff. now exists p.
  - exists p. split; auto. apply in_or_app. auto.
  - exists p. split; auto. apply in_or_app. auto.
Qed.
Lemma set_tab (B : node -> Prop) U i r bd rc st dy : ok U (NAttrs i r bd rc st dy) ->
  (forall a, In a (map snd st ++ dy) -> B (a_key a) /\ prov B (a_value a)) ->
  tab B (fun x => wid (NAttrs i r bd rc st dy) x /\ x <> i) st dy.
Proof.
  intros O Pv. pose proof (proj2 O _ (within_self _)) as (Fr & Pr & So & Fo). split; [auto|split; [auto|]].
  assert (G : forall f, In f (fields (NAttrs i r bd rc st dy)) -> ok (fun x => wid (NAttrs i r bd rc st dy) x /\ x <> i) f).
  { intros f I. destruct (ok_field _ _ _ I O) as [_ T]. split; auto. intros x W. split; [eapply wid_field; eauto|].
    intros ->. now apply (Fr _ I). }
  intros a I. destruct (Pv a I). split; [|split; [|split]]; auto; apply G; [apply field_key|apply field_value]; auto.
Qed.
(** a set whose table was changed *)
Lemma set_ok B (U V : nat -> Prop) i r bd rc st dy st' dy' : ok U (NAttrs i r bd rc st dy) -> (forall x, U x -> V x) ->
  tab B (fun x => (wid (NAttrs i r bd rc st dy) x /\ x <> i) \/ (V x /\ ~ U x)) st' dy' ->
  ok V (NAttrs i r bd rc st' dy') /\
  (forall x, wid (NAttrs i r bd rc st' dy') x -> wid (NAttrs i r bd rc st dy) x \/ ~ U x).
Proof.
  intros O UV (So & Fo & T). pose proof (proj2 O _ (within_self _)) as (Fr & Pr & _ & _). cbn [nid] in Fr.
  assert (Ui : U i) by (apply O; apply (wid_self (NAttrs i r bd rc st dy))).
  assert (G : forall f, In f (fields (NAttrs i r bd rc st' dy')) ->
    tidy_ f /\ forall x, wid f x -> (wid (NAttrs i r bd rc st dy) x /\ x <> i) \/ (V x /\ ~ U x)).
  { intros f I. apply attrs_field in I as [I|(a & Ia & E)].
    - assert (I' : In f (fields (NAttrs i r bd rc st dy))).
      { apply child_field. cbn [children]. rewrite !present_cons. cbn [present flat_map]. rewrite app_nil_r. exact I. }
      split; [apply (ok_field _ _ _ I' O)|]. intros x W. left. split; [eapply wid_field; eauto|]. intros ->. now apply (Fr _ I').
    - destruct (T _ Ia) as ([A1 A2] & [C1 C2] & _). destruct E as [->| ->]; auto. }
  split.
  - apply ok_make; cbn [nid]; auto.
    + intros f I. destruct (G f I) as [Tf Wf]. split.
      * split; auto. intros x W. destruct (Wf x W) as [[W' _]|[W' _]]; auto. apply UV. now apply O.
      * intros W. destruct (Wf _ W) as [[_ N]|[_ N]]; auto.
    + cbn [lrest]. auto.
  - intros x W. apply wid_inv in W as [->|(f & I & W)].
    + left. apply (wid_self (NAttrs i r bd rc st dy)).
    + destruct (G f I) as [_ Wf]. destruct (Wf x W) as [[W' _]|[_ N]]; auto.
Qed.
Lemma prov_entries (B : node -> Prop) i r bd rc st dy : (forall n m, B n -> node_of n m -> B m) ->
  (forall n, B n -> ptidy n) -> prov B (NAttrs i r bd rc st dy) ->
  ((bd = None /\ rc = None) \/ exists st0 dy0, B (NAttrs i r bd rc st0 dy0)) /\
  forall a, In a (map snd st ++ dy) -> B (a_key a) /\ prov B (a_value a).
Proof.
  intros Cl Pt H. inversion H; subst; auto. split; [right; eauto|]. intros a I.
  pose proof (Pt _ H0 _ (node_self _)) as L. cbn [ltab] in L. destruct (L a I) as [L1 L2].
  assert (M : forall x, below_ bd x -> B x).
  { intros x (y & -> & N). apply (Cl _ _ H0). eapply node_child; [|exact N]. now left. }
  split; auto. eapply prov_mono; eauto.
Qed.

(** ** mergeAttrSets *)
Lemma mergeStatic_ok y : forall x R i (Q : smap -> nat -> Prop),
  sorted x -> ForallOrdPairs okp (ents x [] ++ ents y [] ++ R) ->
  (forall st, sorted st -> ForallOrdPairs okp (ents st [] ++ R) ->
     (forall a, In a (map snd st) -> In a (map snd x) \/ In a (map snd y)) -> Q st i) ->
  wpn (mergeStatic x y) i Q.
Proof.
  induction y as [|[k v] y IH]; intros x R i Q So F H; cbn [mergeStatic].
  - apply wpn_ret. apply H; auto.
  - destruct (sfind k x) eqn:E.
    + repeat W1. apply (IH x R); auto.
      * eapply FOP_perm in F; [|apply okp_sym|apply (Permutation_app_comm (ents x []))]. cbn [ents map app] in F. unfold ents at 1 in F.
        cbn [map app flat_map] in F. inversion F; subst. eapply FOP_perm; [apply okp_sym|apply Permutation_app_comm|]. exact H3.
      * intros st S1 S2 S3. apply H; auto. intros c I. cbn [map snd In]. destruct (S3 c I); auto.
    + apply (IH (sinsert k v x) R); auto.
      * now apply sorted_sinsert.
      * eapply FOP_perm; [apply okp_sym| |exact F]. unfold ents. cbn [map flat_map snd]. rewrite !app_nil_r.
        rewrite (sinsert_new k v x E). cbn [map snd app]. symmetry. apply Permutation_middle.
      * intros st S1 S2 S3. apply H; auto. intros c I. cbn [map snd In]. destruct (S3 c I) as [Z|Z]; auto.
        rewrite (sinsert_new k v x E) in Z. cbn [map snd In] in Z. tauto.
Qed.
Lemma merge_ok B (U V : nat -> Prop) x1 x2 y1 y2 i (Q : sema -> nat -> Prop) :
  tab B U x1 x2 -> tab B V y1 y2 -> (forall z, U z -> V z -> False) ->
  (forall st dy, tab B (fun z => U z \/ V z) st dy -> Q (SA st dy) i) ->
  wpn (mergeAttrSets (SA x1 x2) (SA y1 y2)) i Q.
Proof.
  intros T1 T2 Dj H. unfold mergeAttrSets. apply wpn_bind. cbn [sa_static sa_dynamic].
  pose proof T1 as (S1 & F1 & E1). pose proof T2 as (S2 & F2 & E2).
  set (R := flat_map (fun a => [(AK_Plain, a_key a); (a_kind a, a_value a)]) (x2 ++ y2)).
  assert (F : ForallOrdPairs okp (ents x1 x2 ++ ents y1 y2)).
  { apply FOP_app; auto. intros [k1 a] [k2 c] I1 I2. left. cbn [snd]. intros z Wa Wc.
    destruct (ents_in _ _ _ _ _ _ T1 I1) as [A _], (ents_in _ _ _ _ _ _ T2 I2) as [C _]. eauto. }
  apply (mergeStatic_ok y1 x1 R); auto.
  - eapply FOP_perm; [apply okp_sym| |exact F]. unfold ents, R. rewrite flat_map_app. cbn [flat_map]. rewrite !app_nil_r.
    rewrite <- !app_assoc. apply Permutation_app_head. rewrite !app_assoc. apply Permutation_app_tail. apply Permutation_app_comm.
  - intros st S F' I'. apply wpn_ret. apply H. split; [auto|split].
    + unfold ents in F' |- *. cbn [flat_map] in F'. now rewrite app_nil_r in F'.
    + intros a I.
      assert (Z : In a (map snd x1 ++ x2) \/ In a (map snd y1 ++ y2)).
      { rewrite !in_app_iff in I |- *. destruct I as [I|[I|I]]; [destruct (I' _ I)|..]; auto. }
      destruct Z as [Z|Z]; [destruct (E1 _ Z) as (O1 & O2 & O3 & O4)|destruct (E2 _ Z) as (O1 & O2 & O3 & O4)].
      * split; [|split; [|split]]; auto; apply (ok_weak U); auto.
      * split; [|split; [|split]]; auto; apply (ok_weak V); auto.
Qed.

Section From.
Variable B : node -> Prop.
Hypothesis Cl : forall n m, B n -> node_of n m -> B m.
Hypothesis Pt : forall n, B n -> ptidy n.

Definition apart_ (U V : nat -> Prop) : Prop := forall i, U i -> V i -> False.
Lemma ents_apart (U V : nat -> Prop) st dy e x : tab B U st dy -> In e (ents st dy) -> ok V x -> apart_ U V -> wdisj (snd e) x.
Proof.
  intros T I [O _] A i W1 W2. destruct e as [k y]. destruct (ents_in _ _ _ _ _ _ T I) as [Oy _]. apply (A i); auto.
Qed.
Lemma attrs_inv n sa : attrs_sema n = Some sa -> exists i r bd rc, n = NAttrs i r bd rc (sa_static sa) (sa_dynamic sa).
Proof. destruct n; cbn; try discriminate. intros H. injection H as <-. eauto. Qed.
Lemma tab_value (U : nat -> Prop) x w st dy : tab B U st dy -> sfind x st = Some w ->
  ok U (a_key w) /\ ok U (a_value w) /\ B (a_key w) /\ prov B (a_value w).
Proof.
  intros (_ & _ & T) F. apply T. apply in_or_app. left. apply in_map_iff. exists (x, w). split; auto. now apply sfind_in.
Qed.

Lemma insertAttr_ok (U V : nat -> Prop) st dy name e i (Q : sema -> nat -> Prop) :
  tab B U st dy -> ok V name -> B name -> (forall v, e = Some v -> ok V v /\ B v /\ wdisj name v) -> apart_ U V ->
  (forall st' dy', tab B (fun z => U z \/ V z) st' dy' -> Q (SA st' dy') i) ->
  wpn (insertAttr (SA st dy) name e AK_Plain) i Q.
Proof.
  intros T On Bn He Dj H. unfold insertAttr. cbn [sa_static sa_dynamic].
  assert (T' : tab B (fun z => U z \/ V z) st dy) by (eapply tab_weak; [| |exact T]; auto).
  assert (Wv : forall n, ok V n -> ok (fun z => U z \/ V z) n) by (intros n; apply ok_weak; auto).
  destruct (staticName name) as [sn|].
  2:{ destruct e as [v|]; [|apply wpn_ret; now apply H]. apply wpn_ret. destruct (He v eq_refl) as (Ov & Bv & W). apply H.
      apply tab_dyn; auto; [now apply prov_node|]. intros e I. split; eapply (ents_apart U V); eauto. }
  destruct (sfind sn st) as [w|] eqn:F.
  2:{ destruct e as [v|]; [|apply wpn_ret; now apply H]. apply wpn_ret. destruct (He v eq_refl) as (Ov & Bv & W). apply H.
      apply tab_new; auto; [now apply prov_node|]. intros e I. left. cbn [snd]. apply wdisj_sym. eapply (ents_apart U V); eauto. }
  destruct (attrs_sema (a_value w)) as [xs|] eqn:Ex; [destruct e as [en|]; [destruct (attrs_sema en) as [ys|] eqn:Ey|]|].
  2-4: repeat W1; now apply H.
  repeat W1. destruct (He en eq_refl) as (Oe & Be & _).
  destruct (tab_value _ _ _ _ _ T F) as (Ok1 & Ov1 & Bk1 & Pv1).
  apply attrs_inv in Ex as (i1 & r1 & bd1 & rc1 & Ex). apply attrs_inv in Ey as (i2 & r2 & bd2 & rc2 & Ey).
  destruct xs as [x1 x2], ys as [y1 y2]. cbn [sa_static sa_dynamic] in Ex, Ey. rewrite Ex in Ov1, Pv1. subst en.
  destruct (prov_entries B _ _ _ _ _ _ Cl Pt Pv1) as [Or1 En1].
  destruct (prov_entries B _ _ _ _ _ _ Cl Pt (prov_node B _ Be)) as [_ En2].
  eapply merge_ok; [apply (set_tab B U); eauto|apply (set_tab B V); eauto| |].
  - intros z [Z1 _] [Z2 _]. apply (Dj z); [now apply Ov1|now apply Oe].
  - intros st' dy' T2. apply wpn_ret. apply H.
    destruct (set_ok B U (fun z => U z \/ V z) i1 r1 bd1 rc1 x1 x2 st' dy') as [O2 W2]; auto.
    { eapply tab_weak; [| |exact T2]; auto. cbn. intros z [Z|[Z _]]; auto. right. apply Oe in Z. split; auto. intros Uz. now apply (Dj z). }
    rewrite Ex. cbn [with_sema sa_static sa_dynamic]. apply (tab_change B U); auto.
    + rewrite Ex. discriminate.
    + apply prov_set; auto. intros a0 I0. now apply T2.
    + rewrite Ex. auto.
Qed.

(** the identities of some nodes *)
Definition idsof (l : list node) (i : nat) : Prop := exists n, In n l /\ wid n i.
Lemma idsof_ok U l n : Forall (ok U) l -> In n l -> ok (idsof l) n.
Proof.
  intros F I. rewrite Forall_forall in F. split; [|apply (F _ I)]. intros i W. now exists n.
Qed.

Lemma addAttr_ok path : forall st dy e (U V : nat -> Prop) i (Q : sema -> nat -> Prop),
  tab B U st dy -> Forall (ok V) (path ++ optlist e) -> pairs (path ++ optlist e) -> Forall B (path ++ optlist e) ->
  apart_ U V -> (forall z, U z -> z < i) -> (forall z, V z -> z < i) ->
  (forall st' dy' j, i <= j -> tab B (fun z => U z \/ V z \/ i <= z < j) st' dy' -> Q (SA st' dy') j) ->
  wpn (addAttr (SA st dy) path e) i Q.
Proof.
  induction path as [|name path IH]; intros st dy e U V i Q T O Pr Bs Dj Ui Vi H; cbn [addAttr]; [apply wpn_crash|].
  cbn [app] in O, Pr, Bs. inversion O as [|? ? On O']; subst. inversion Pr as [|? ? Pn Pr']; subst. inversion Bs as [|? ? Bn Bs']; subst.
  assert (T' : tab B (fun z => U z \/ V z \/ i <= z < i) st dy) by (eapply tab_weak; [| |exact T]; auto).
  destruct path as [|n2 path].
  { cbn [app] in *. apply (insertAttr_ok U V); auto.
    - intros v ->. cbn [optlist] in *. inversion O'; subst. inversion Bs'; subst. inversion Pn; subst. auto.
    - intros st' dy' T2. apply H; auto. eapply tab_weak; [| |exact T2]; cbn; tauto. }
  set (p := n2 :: path) in *. cbn [sa_static sa_dynamic].
  assert (New : forall (k : node -> P sema),
    (forall st' dy' j, i <= j -> tab B (fun z => idsof (p ++ optlist e) z \/ i <= z < j) st' dy' ->
       wpn (k (NAttrs j (nrange name) None None st' dy')) (S j) Q) ->
    wpn (let! inner' := addAttr sa_empty p e in let! n := mkNested name inner' in k n) i Q).
  { intros k Hk. apply wpn_bind. unfold sa_empty. apply (IH [] [] e (fun _ => False) (idsof (p ++ optlist e)) i); auto.
    - apply tab_nil.
    - apply Forall_forall. intros n I. eapply idsof_ok; eauto.
    - intros z [].
    - contradiction.
    - intros z (n & I & W). rewrite Forall_forall in O'. apply Vi. now apply (O' _ I).
    - intros st' dy' j Lj T2. unfold mkNested. apply wpn_bind, wpn_bind, wpn_fresh, wpn_ret. cbn [sa_static sa_dynamic].
      apply Hk; auto. eapply tab_weak; [| |exact T2]; cbn; tauto. }
  assert (Nid : forall st' dy' j, i <= j -> tab B (fun z => idsof (p ++ optlist e) z \/ i <= z < j) st' dy' ->
     ok (fun z => idsof (p ++ optlist e) z \/ i <= z < S j) (NAttrs j (nrange name) None None st' dy') /\
     prov B (NAttrs j (nrange name) None None st' dy')).
  { intros st' dy' j Lj T2. split; [|apply prov_set; [auto|]; intros a I; now apply T2].
    assert (G : forall f, In f (fields (NAttrs j (nrange name) None None st' dy')) -> ok (fun z => idsof (p ++ optlist e) z \/ i <= z < j) f).
    { intros f I. apply attrs_field in I as [[]|(a & Ia & [->| ->])]; now apply T2. }
    apply ok_make; cbn [nid].
    - right. lia.
    - intros f I. pose proof (G f I) as Gf. split; [eapply ok_weak; [|exact Gf]; cbn; intros z [Z|Z]; auto; right; lia|].
      intros W. apply Gf in W as [(n & In_ & W)|W]; [|lia]. rewrite Forall_forall in O'. apply (O' _ In_) in W. apply Vi in W. lia.
    - cbn [lrest optlist app]. split; [constructor|]. destruct T2 as (S2 & F2 & _). auto. }
  assert (Vp : forall z, idsof (p ++ optlist e) z -> V z).
  { intros z (n & I & W). rewrite Forall_forall in O'. now apply (O' _ I). }
  assert (Big : forall j n, i <= j -> ok (fun z => idsof (p ++ optlist e) z \/ i <= z < S j) n -> ok (fun z => U z \/ V z \/ i <= z < S j) n).
  { intros j n L. apply ok_weak. intros z [Z|Z]; auto. }
  assert (Ap : forall j n f, i <= j -> ok (fun z => idsof (p ++ optlist e) z \/ i <= z < S j) n -> In f (ents st dy) -> wdisj (snd f) n).
  { intros j n f L On2 I. eapply (ents_apart U); eauto. intros z Uz [Z|Z]; [apply (Dj z); auto|]. apply Ui in Uz. lia. }
  assert (TS : forall j, i <= j -> tab B (fun z => U z \/ V z \/ i <= z < S j) st dy).
  { intros j L. eapply tab_weak; [| |exact T]; auto. }
  destruct (staticName name) as [sn|].
  2:{ apply New. intros st' dy' j L T2. apply wpn_ret. destruct (Nid _ _ _ L T2) as [On2 Pn2]. apply H; [lia|]. apply tab_dyn; auto.
      - eapply ok_weak; [|exact On]. auto.
      - intros z W1 W2. apply On2 in W2 as [(n & In_ & W2)|W2].
        + rewrite Forall_forall in Pn. apply (Pn _ In_ z); auto.
        + apply On in W1. apply Vi in W1. lia.
      - intros f I. split; [|eapply Ap; eauto]. eapply (ents_apart U V); eauto. }
  destruct (sfind sn st) as [w|] eqn:F.
  2:{ apply New. intros st' dy' j L T2. apply wpn_ret. destruct (Nid _ _ _ L T2) as [On2 Pn2]. apply H; [lia|]. apply tab_new; auto.
      - eapply ok_weak; [|exact On]. auto.
      - intros f I. left. apply wdisj_sym. cbn [snd]. eapply Ap; eauto. }
  destruct (fromInherit w); [repeat W1; apply H; auto|].
  destruct (attrs_sema (a_value w)) as [xs|] eqn:Ex; [|repeat W1; apply H; auto].
  destruct (tab_value _ _ _ _ _ T F) as (Ok1 & Ov1 & Bk1 & Pv1).
  apply attrs_inv in Ex as (i1 & r1 & bd1 & rc1 & Ex). destruct xs as [x1 x2]. cbn [sa_static sa_dynamic] in Ex. rewrite Ex in Ov1, Pv1.
  destruct (prov_entries B _ _ _ _ _ _ Cl Pt Pv1) as [Or1 En1]. pose proof (set_tab B U _ _ _ _ _ _ Ov1 En1) as Tin.
  apply wpn_bind. apply (IH x1 x2 e _ V i _ Tin); auto.
  - intros z [Z1 _] Z2. apply (Dj z); auto. now apply Ov1.
  - intros z [Z1 _]. apply Ui. now apply Ov1.
  - intros st' dy' j L T2. apply wpn_ret. apply H; auto.
    destruct (set_ok B U (fun z => U z \/ V z \/ i <= z < j) i1 r1 bd1 rc1 x1 x2 st' dy') as [O2 W2]; auto.
    { eapply tab_weak; [| |exact T2]; auto. cbn. intros z [Z|[Z|Z]]; auto; right; (split; [auto|]); intros Uz.
      - now apply (Dj z).
      - apply Ui in Uz. lia. }
    rewrite Ex. cbn [with_sema sa_static sa_dynamic]. apply (tab_change B U); auto.
    + rewrite Ex. discriminate.
    + apply prov_set; auto. intros a0 I0. now apply T2.
    + rewrite Ex. auto.
Qed.

Definition away (N E : nat -> Prop) (e : option node) (i : nat) (c : akind * node) : Prop :=
  (forall z, wid (snd c) z -> ~ N z /\ ~ E z) \/
  (fst c = AK_InheritFrom /\ exists i1 r1 ex p1 d1, e = Some ex /\ snd c = NSelect i1 r1 ex None (Some p1) None d1 /\
     ~ N i1 /\ i1 < i /\ forall z, wid p1 z -> ~ N z /\ z < i).
Lemma away_weak (N N' E : nat -> Prop) e i i' c : (forall z, N' z -> N z) -> i <= i' -> away N E e i c -> away N' E e i' c.
Proof.
  intros HN L [A|(K & i1 & r1 & ex & p1 & d1 & E1 & E2 & A1 & A2 & A3)].
  - left. intros z W. destruct (A z W). split; auto.
  - right. split; auto. exists i1, r1, ex, p1, d1. repeat split; auto; try lia; intros; destruct (A3 z H); auto; lia.
Qed.
Lemma in_ents_new x k key v st dy f : sfind x st = None -> In f (ents (sinsert x (k, key, v) st) dy) -> f = (k, v) \/ In f (ents st dy).
Proof.
  intros N I. unfold ents in *. rewrite (sinsert_new _ _ _ N) in I. cbn [map snd app In] in I. destruct I as [<-|I]; auto.
Qed.
Lemma idsof_cons n l z : idsof (n :: l) z <-> wid n z \/ idsof l z.
Proof.
  unfold idsof. cbn [In]. split.
  - intros (m & [<-|I] & W); [auto|right; eauto].
  - intros [W|(m & I & W)]; eauto.
Qed.
Lemma ident_within i r j s x : In (NIdent j s x) (fields (NAttrName i r (NIdent j s x))).
Proof. now left. Qed.

Lemma lowerInherit_ok e names : forall st dy (U : nat -> Prop) i (Q : sema -> nat -> Prop),
  tab B U st dy -> Forall (ok (fun z => z < i)) (names ++ optlist e) -> pairs (names ++ optlist e) -> Forall B (names ++ optlist e) ->
  (forall z, U z -> z < i) ->
  (forall c, In c (ents st dy) -> away (idsof names) (idsof (optlist e)) e i c) ->
  (forall st' dy' j, i <= j -> tab B (fun z => U z \/ idsof names z \/ idsof (optlist e) z \/ i <= z < j) st' dy' -> Q (SA st' dy') j) ->
  wpn (lowerInherit (SA st dy) names e) i Q.
Proof.
  induction names as [|n names IH]; intros st dy U i Q T O Pr Bs Ui J H; cbn [lowerInherit].
  { apply wpn_ret. apply H; auto. eapply tab_weak; [| |exact T]; auto. }
  cbn [app] in O, Pr, Bs. inversion O as [|? ? On O']; subst. inversion Pr as [|? ? Pn Pr']; subst. inversion Bs as [|? ? Bn Bs']; subst.
  rewrite Forall_forall in Pn.
  (* what happens to the entry that is made for the first name *)
  assert (Step : forall v k j, i <= j ->
    ok (fun z => wid n z \/ idsof (optlist e) z \/ i <= z < j) v -> prov B v ->
    (forall c, In c (ents st dy) -> okp (k, v) c) -> away (idsof names) (idsof (optlist e)) e j (k, v) ->
    wpn (let! sa' := lowerInheritName (SA st dy) n v k in lowerInherit sa' names e) j Q).
  { intros v k j L Ov Pv Ok Aw.
    assert (O2 : Forall (ok (fun z => z < j)) (names ++ optlist e)).
    { eapply Forall_impl; [|exact O']. intros m. apply ok_weak. intros z Z. lia. }
    assert (Drop : wpn (lowerInherit (SA st dy) names e) j Q).
    { apply (IH st dy U); auto.
      - intros z Z. apply Ui in Z. lia.
      - intros c I. eapply away_weak; [| |apply J; exact I]; [|lia]. intros z Z. rewrite idsof_cons. auto.
      - intros st' dy' j' L' T2. apply H; [lia|]. eapply tab_weak; [| |exact T2]; auto. cbn. intros z Z. rewrite idsof_cons.
        destruct Z as [Z|[Z|[Z|Z]]]; auto. right. right. right. lia. }
    unfold lowerInheritName. destruct (staticName n) as [sn|]; [|repeat W1; exact Drop]. cbn [sa_static sa_dynamic].
    destruct (sfind sn st) as [w|] eqn:F; [repeat W1; exact Drop|]. apply wpn_bind, wpn_ret.
    apply (IH _ _ (fun z => U z \/ wid n z \/ idsof (optlist e) z \/ i <= z < j)); auto.
    - apply tab_new; auto.
      + eapply tab_weak; [| |exact T]; auto.
      + eapply ok_weak; [|eapply ok_own; exact On]. auto.
      + eapply ok_weak; [|exact Ov]. cbn. auto.
    - intros z [Z|[Z|[(m & Im & Z)|Z]]]; try lia.
      + apply Ui in Z. lia.
      + apply On in Z. lia.
      + rewrite Forall_forall in O'. apply (O' m) in Z; [lia|]. apply in_or_app. auto.
    - intros c I. apply in_ents_new in I as [->|I]; auto.
      eapply away_weak; [| |apply J; exact I]; [|lia]. intros z Z. rewrite idsof_cons. auto.
    - intros st' dy' j' L' T2. apply H; [lia|]. eapply tab_weak; [| |exact T2]; auto. cbn. intros z Z. rewrite idsof_cons.
      destruct Z as [[Z|[Z|[Z|Z]]]|[Z|[Z|Z]]]; auto; right; right; right; lia. }
  assert (Jn : forall c, In c (ents st dy) -> forall z, wid (snd c) z -> z < i).
  { intros [k y] I z W. apply Ui. destruct (ents_in _ _ _ _ _ _ T I) as [A _]. now apply A. }
  unfold desugarInheritExpr. destruct e as [ex|].
  - cbn [optlist] in *. repeat apply wpn_bind. apply wpn_fresh, wpn_bind, wpn_fresh, wpn_ret.
    assert (Oex : ok (fun z => z < i) ex) by (rewrite Forall_forall in O'; apply O'; apply in_or_app; right; now left).
    assert (Wne : wdisj n ex) by (apply Pn; apply in_or_app; right; now left).
    set (path := NAttrPath i (nrange n) [n] []).
    assert (Wp : forall z, wid path z <-> z = i \/ wid n z).
    { intros z. split.
      - intros W. apply wid_inv in W as [->|(f & [<-|[]] & W)]; auto.
      - intros [->|W]; [apply (wid_self path)|]. eapply wid_field; [|exact W]. now left. }
    assert (Op : ok (fun z => wid n z \/ idsof [ex] z \/ i <= z < S (S i)) path).
    { apply ok_make; cbn [nid path].
      - right. right. lia.
      - intros f [<-|[]]. split; [eapply ok_weak; [|eapply ok_own; exact On]; auto|]. intros W. apply On in W. lia.
      - cbn [lrest children]. repeat constructor. }
    apply Step; auto.
    + apply ok_make; cbn [nid].
      * right. right. lia.
      * intros f [<-|[<-|[]]].
        -- split; [eapply ok_weak; [|eapply ok_own; exact Oex]; intros z Z; right; left; exists ex; cbn; auto|].
           intros W. apply Oex in W. lia.
        -- split; [exact Op|]. intros W. apply Wp in W as [W|W]; [lia|]. apply On in W. lia.
      * cbn [lrest children present flat_map app]. constructor; [|repeat constructor]. constructor; [|constructor].
        intros z W1 W2. apply Wp in W2 as [->|W2]; [apply Oex in W1; lia|]. now apply (Wne z).
    + apply prov_sel; auto. rewrite Forall_forall in Bs'. apply Bs'. apply in_or_app. right. now left.
    + intros c I. destruct (J c I) as [A|(K & i1 & r1 & ex' & p1 & d1 & E1 & E2 & A1 & A2 & A3)].
      * left. cbn [snd]. intros z W1 W2. destruct (A z W2) as [N1 N2]. pose proof (Jn c I z W2) as Lz.
        apply wid_inv in W1 as [->|(f & [<-|[<-|[]]] & W1)]; cbn [nid] in *; try lia.
        -- apply N2. exists ex. cbn. auto.
        -- apply Wp in W1 as [->|W1]; [lia|]. apply N1. rewrite idsof_cons. auto.
      * injection E1 as <-. right. split; [reflexivity|]. split; [exact K|]. rewrite E2. cbn [snd].
        exists (S i), (nrange n), ex, path, (Some (nid ex)), i1, r1, p1, d1.
        split; [reflexivity|]. split; [reflexivity|]. split; [lia|]. split; [|split].
        -- intros z W1 W2. destruct (A3 z W2) as [N1 L1]. apply Wp in W1 as [->|W1]; [lia|]. apply N1. rewrite idsof_cons. auto.
        -- intros W. apply Wp in W as [->|W]; [lia|]. apply A1. rewrite idsof_cons. auto.
        -- intros W. destruct (A3 _ W). lia.
    + right. split; [reflexivity|]. exists (S i), (nrange n), ex, path, (Some (nid ex)). split; [reflexivity|]. split; [reflexivity|].
      assert (Nn : forall z, i <= z -> ~ idsof names z).
      { intros z L (m & Im & W). rewrite Forall_forall in O'. apply (O' m) in W; [lia|]. apply in_or_app. auto. }
      split; [apply Nn; lia|]. split; [lia|]. intros z W. apply Wp in W as [->|W].
      * split; [apply Nn; lia|lia].
      * split; [|apply On in W; lia]. intros (m & Im & Wm). apply (Pn m (in_or_app _ _ _ (or_introl Im)) z); auto.
  - destruct n; try (apply wpn_bind, wpn_crash). destruct n; try (apply wpn_bind, wpn_crash).
    repeat apply wpn_bind. apply wpn_fresh, wpn_ret. cbn [optlist] in *. rewrite app_nil_r in *.
    set (nn := NAttrName id r (NIdent id0 r0 name)) in *.
    assert (Wn : forall z, wid (NIdent id0 r0 name) z -> wid nn z) by (intros z; apply wid_field; now left).
    assert (Wv : forall z, wid (NVar i r (NIdent id0 r0 name)) z -> z = i \/ wid nn z).
    { intros z W. apply wid_inv in W as [->|(f & [<-|[]] & W)]; auto. }
    apply Step; auto.
    + apply ok_make; cbn [nid].
      * right. right. lia.
      * intros f [<-|[]]. split.
        -- eapply (ok_weak (wid nn)); [auto|]. eapply ok_field; [apply ident_within|]. eapply ok_own. exact On.
        -- intros W. apply Wn in W. apply On in W. lia.
      * cbn [lrest children]. repeat constructor.
    + apply prov_var. apply (Cl nn); auto. eapply node_child; [now left|constructor].
    + intros c I. destruct (J c I) as [A|(K & i1 & r1 & ex' & p1 & d1 & E1 & E2 & A1 & A2 & A3)]; [|discriminate].
      left. cbn [snd]. intros z W1 W2. destruct (A z W2) as [N1 N2]. pose proof (Jn c I z W2) as Lz. apply Wv in W1 as [->|W1]; [lia|].
      apply N1. rewrite idsof_cons. auto.
    + left. cbn [snd]. intros z W. split; [|intros (m & [] & _)]. intros (m & Im & Wm). apply Wv in W as [->|W].
      * rewrite Forall_forall in O'. apply (O' m) in Wm; [lia|auto].
      * apply (Pn m Im z); auto.
Qed.

Lemma FOP_in_sub {A} (R : A -> A -> Prop) x l m : ForallOrdPairs R (x :: l ++ m) -> ForallOrdPairs R (x :: m).
Proof.
  intros H. inversion H; subst. constructor; [apply Forall_app in H2; tauto|]. eapply FOP_sub_r; eauto.
Qed.
Lemma lowerBinds_ok bs : forall st dy (U : nat -> Prop) i (Q : sema -> nat -> Prop),
  tab B U st dy -> Forall (ok (fun z => z < i)) bs -> pairs bs -> Forall B bs -> (forall z, U z -> z < i) ->
  apart_ U (idsof bs) ->
  (forall st' dy' j, i <= j -> tab B (fun z => U z \/ idsof bs z \/ i <= z < j) st' dy' -> Q (SA st' dy') j) ->
  wpn (lowerBinds (SA st dy) bs) i Q.
Proof.
  induction bs as [|n bs IH]; intros st dy U i Q T O Pr Bs Ui Dj H; cbn [lowerBinds].
  { apply wpn_ret. apply H; auto. eapply tab_weak; [| |exact T]; auto. }
  inversion O as [|? ? On O']; subst. inversion Pr as [|? ? Pn Pr']; subst. inversion Bs as [|? ? Bn Bs']; subst.
  rewrite Forall_forall in Pn.
  assert (Next : forall st' dy' j, i <= j -> tab B (fun z => U z \/ wid n z \/ i <= z < j) st' dy' -> wpn (lowerBinds (SA st' dy') bs) j Q).
  { intros st' dy' j L T2. apply (IH _ _ _ _ _ T2); auto.
    - eapply Forall_impl; [|exact O']. intros m. apply ok_weak. intros z Z. lia.
    - intros z [Z|[Z|Z]]; [apply Ui in Z; lia|apply On in Z; lia|lia].
    - intros z [Z|[Z|Z]] I.
      + apply (Dj z); auto. rewrite idsof_cons. auto.
      + destruct I as (m & Im & W). now apply (Pn m Im z).
      + destruct I as (m & Im & W). rewrite Forall_forall in O'. apply (O' m Im) in W. lia.
    - intros st2 dy2 j2 L2 T3. apply H; [lia|]. eapply tab_weak; [| |exact T3]; auto. cbn. intros z Z. rewrite idsof_cons.
      destruct Z as [[Z|[Z|Z]]|[Z|Z]]; auto; right; right; lia. }
  assert (Sub : forall l, (forall f, In f l -> node_of n f) ->
    Forall (ok (fun z => z < i)) l /\ Forall B l /\ (forall z, idsof l z -> wid n z)).
  { intros l F. split; [|split].
    - apply Forall_forall. intros f I. eapply ok_in; [|exact On]. apply node_within. auto.
    - apply Forall_forall. intros f I. eapply Cl; eauto.
    - intros z (f & I & W). eapply wid_in; [|exact W]. apply node_within. auto. }
  destruct On as [Oi Ot]. pose proof (Ot n (within_self n)) as [_ Lr].
  destruct n; try apply wpn_crash.
  - (* a binding *)
    cbn [lrest children] in Lr. rewrite !present_cons in Lr. cbn [present flat_map app optlist] in Lr. rewrite app_nil_r in Lr.
    apply FOP_in_sub in Lr.
    assert (Bp : forall f, In f (path_names n ++ optlist value) -> node_of (NBinding id r n value eq) f).
    { intros f I. apply in_app_or in I as [I|I].
      - eapply node_child; [cbn [children]; rewrite present_cons; now left|].
        destruct n; cbn [path_names] in I; try contradiction. eapply node_child; [|constructor].
        cbn [children]. rewrite present_some. apply in_or_app. auto.
      - eapply node_child; [cbn [children]; rewrite !present_cons; apply in_or_app; right; apply in_or_app; right; apply in_or_app; left; exact I|constructor]. }
    destruct (Sub _ Bp) as (S1 & S2 & S3). apply wpn_bind.
    apply (addAttr_ok (path_names n) st dy value U (idsof (path_names n ++ optlist value)) i); auto.
    + apply Forall_forall. intros f I. eapply idsof_ok; eauto.
    + assert (Pp : pairs (path_names n)).
      { assert (Wn : within (NBinding id r n value eq) n) by (eapply within_field; [now left|constructor]).
        destruct (Ot n Wn) as [_ Lp]. destruct n; cbn [path_names]; try constructor.
        cbn [lrest children] in Lp. rewrite present_some in Lp. eapply FOP_sub_l; exact Lp. }
      inversion Lr as [|? ? L1 L2]; subst. apply pairs_app; auto. intros x y X Y z Wx Wy. rewrite Forall_forall in L1.
      apply (L1 y Y z); auto. destruct n; cbn [path_names] in X; try contradiction. eapply wid_field; [|exact Wx]. apply child_field.
      cbn [children]. rewrite present_some. apply in_or_app. auto.
    + intros z Z1 Z2. apply (Dj z); auto. rewrite idsof_cons. auto.
    + intros st' dy' j L T2. apply Next; auto. eapply tab_weak; [| |exact T2]; auto. cbn. intros z [Z|[Z|Z]]; auto.
  - (* an inherit *)
    cbn [lrest children] in Lr. rewrite present_app, present_some, present_cons in Lr. cbn [present flat_map] in Lr. rewrite app_nil_r in Lr.
    assert (Bp : forall f, In f (names ++ optlist e) -> node_of (NInherit id r names e) f).
    { intros f I. eapply node_child; [|constructor]. cbn [children]. rewrite present_app, present_some, present_cons.
      cbn [present flat_map]. rewrite app_nil_r. exact I. }
    destruct (Sub _ Bp) as (S1 & S2 & S3). apply wpn_bind. apply (lowerInherit_ok e names st dy U); auto.
    + intros [k y] I. left. cbn [snd]. intros z W. destruct (ents_in _ _ _ _ _ _ T I) as [Oy _]. apply Oy in W.
      split; intros (f & If & Wf); apply (Dj z); auto; rewrite idsof_cons; left; apply S3; exists f; split; auto; apply in_or_app; auto.
    + intros st' dy' j L T2. apply Next; auto. eapply tab_weak; [| |exact T2]; auto. cbn.
      intros z [Z|[(f & If & Wf)|[(f & If & Wf)|Z]]]; auto; right; left; apply S3; exists f; split; auto; apply in_or_app; auto.
Qed.
End From.

Lemma onExprAttrs_ok a r bd rc i (Q : node -> nat -> Prop) : a <= i -> D a i (optlist bd ++ optlist rc) ->
  (forall st dy j, i <= j -> D a (S j) [NAttrs j r bd rc st dy] -> Q (NAttrs j r bd rc st dy) (S j)) ->
  wpn (onExprAttrs r bd rc) i Q.
Proof.
  intros La Dd H. unfold onExprAttrs. apply wpn_bind. unfold sa_empty.
  pose proof Dd as (F & Pr & Pt).
  assert (Sub : forall f, In f (binds_list bd) -> below_ bd f).
  { intros f I. destruct bd as [bn|]; [|contradiction]. exists bn. split; auto. destruct bn; cbn [binds_list] in I; try contradiction.
    eapply node_child; [|constructor]. cbn [children]. now rewrite present_some. }
  assert (Ob : forall f, below_ bd f -> ok (iv a i) f /\ ptidy f).
  { intros f (bn & -> & N). cbn [optlist] in *. split.
    - inversion F; subst. eapply ok_in; [apply node_within; exact N|auto].
    - inversion Pt; subst. eapply ptidy_in; eauto. }
  apply (lowerBinds_ok (below_ bd)) with (U := fun _ => False).
  - intros n m (bn & -> & N) N2. exists bn. split; auto. eapply node_trans; eauto.
  - intros n Bn. now apply Ob.
  - apply tab_nil.
  - apply Forall_forall. intros f I. apply Sub in I. eapply ok_weak; [|apply (Ob f I)]. unfold iv. lia.
  - destruct bd as [bn|]; [|constructor]. cbn [optlist] in F. inversion F; subst. destruct H2 as [_ T]. specialize (T bn (within_self bn)) as [_ T].
    destruct bn; cbn [binds_list]; try constructor. cbn [lrest children] in T. now rewrite present_some in T.
  - apply Forall_forall. exact Sub.
  - contradiction.
  - intros z [].
  - intros st dy j L T. apply wpn_bind, wpn_fresh, wpn_ret. cbn [sa_static sa_dynamic]. apply H; auto.
    assert (T2 : tab (below_ bd) (iv a j) st dy).
    { eapply tab_weak; [| |exact T]; auto. cbn. intros z [[]|[(f & I & W)|Z]]; unfold iv; [|lia].
      apply (proj1 (Ob f (Sub f I))) in W. unfold iv in W. lia. }
    destruct T2 as (S2 & F2 & T2). apply D_mk; auto.
    + lia.
    + apply Forall_forall. intros f I. apply attrs_field in I as [I|(c & Ic & [->| ->])]; try now apply T2.
      rewrite Forall_forall in F. eapply ok_weak; [|apply F; exact I]. unfold iv. lia.
    + cbn [lrest]. auto.
    + cbn [ltab]. intros c I. now apply T2.
    + cbn [children]. rewrite !present_cons. cbn [present flat_map]. rewrite app_nil_r. exact Pt.
Qed.
