(** Lemmas on the lowering of binding lists. *)
From Verif Require Import Base Diag LexModel AstModel PSupModel SemaModel SemaSpec.

(** ** the order of names *)
Lemma beq_eq x : forall y, bytes_eqb x y = true <-> x = y.
Proof.
  induction x as [|a x IH]; intros [|c y]; simpl; try (split; congruence).
  rewrite Bool.andb_true_iff, Ascii.eqb_eq, IH. split; [intros [-> ->]; auto|intros H; injection H as -> ->; auto].
Qed.
Lemma beq_refl x : bytes_eqb x x = true.
Proof. now apply beq_eq. Qed.
Lemma beq_neq x y : bytes_eqb x y = false <-> x <> y.
Proof. rewrite <- beq_eq. destruct (bytes_eqb x y); split; congruence. Qed.
Lemma ltb_irr x : bytes_ltb x x = false.
Proof. induction x as [|a x IH]; simpl; auto. now rewrite N.ltb_irrefl, N.eqb_refl. Qed.
Lemma ltb_trans x : forall y z, bytes_ltb x y = true -> bytes_ltb y z = true -> bytes_ltb x z = true.
Proof.
  induction x as [|a x IH]; intros [|c y] [|d z]; simpl; try congruence.
  destruct (N.ltb (code a) (code c)) eqn:A, (N.ltb (code c) (code d)) eqn:C, (N.eqb (code a) (code c)) eqn:E, (N.eqb (code c) (code d)) eqn:F;
    try congruence; rewrite ?N.ltb_lt, ?N.ltb_ge, ?N.eqb_eq, ?N.eqb_neq in *; intros H1 H2;
    destruct (N.ltb_spec (code a) (code d)); auto; try lia.
  - destruct (N.eqb_spec (code a) (code d)); [eauto|lia].
Qed.
Lemma code_inj a c : code a = code c -> a = c.
Proof. unfold code. intros H. rewrite <- (ascii_N_embedding a), <- (ascii_N_embedding c). now f_equal. Qed.
Lemma ltb_total x : forall y, bytes_eqb x y = false -> bytes_ltb x y = false -> bytes_ltb y x = true.
Proof.
  induction x as [|a x IH]; intros [|c y]; simpl; try congruence.
  destruct (N.ltb_spec (code a) (code c)); [congruence|].
  destruct (N.eqb_spec (code a) (code c)) as [E|E].
  - apply code_inj in E. subst c. rewrite (proj2 (Ascii.eqb_eq a a) eq_refl). simpl. rewrite N.ltb_irrefl, N.eqb_refl. auto.
  - intros _ _. destruct (N.ltb_spec (code c) (code a)); auto. lia.
Qed.

(** ** ordered tables *)
Definition sorted (st : table) : Prop := increasing (map fst st).
Lemma sorted_nodup st : sorted st -> NoDup (map fst st).
Proof.
  unfold sorted, increasing. induction 1 as [|x l S IH F]; constructor; auto. intros I.
  rewrite Forall_forall in F. specialize (F _ I). now rewrite ltb_irr in F.
Qed.
Lemma sorted_fun st x a c : sorted st -> In (x, a) st -> In (x, c) st -> a = c.
Proof.
  intros S. apply sorted_nodup in S. induction st as [|[y d] st IH]; simpl; [contradiction|].
  simpl in S. inversion S; subst. intros [A|A] [C|C]; auto; try congruence.
  - injection A as -> ->. elim H1. apply in_map_iff. now exists (x, c).
  - injection C as -> ->. elim H1. apply in_map_iff. now exists (x, a).
Qed.
Lemma sfind_in x st a : sfind x st = Some a -> In (x, a) st.
Proof.
  induction st as [|[y d] st IH]; simpl; [discriminate|]. destruct (bytes_eqb x y) eqn:E; [apply beq_eq in E; intros H; injection H as ->; subst; auto|auto].
Qed.
Lemma sfind_none x st : sfind x st = None -> forall a, ~ In (x, a) st.
Proof.
  induction st as [|[y d] st IH]; simpl; [auto|]. destruct (bytes_eqb x y) eqn:E; [discriminate|]. intros H a [I|I]; [|now elim (IH H a)].
  injection I as -> _. now rewrite beq_refl in E.
Qed.
Lemma in_sinsert x v st : sorted st -> forall y c,
  In (y, c) (sinsert x v st) <-> (y = x /\ c = v) \/ (y <> x /\ In (y, c) st).
Proof.
  unfold sorted, increasing. induction st as [|[z d] st IH]; simpl; intros S y c; [intuition congruence|].
  inversion S as [|z0 l0 S' F]; subst. rewrite Forall_forall in F.
  assert (Fz : forall w e, In (w, e) st -> bytes_ltb z w = true) by (intros w e I; apply F; apply in_map_iff; now exists (w, e)).
  destruct (bytes_eqb x z) eqn:E.
  - apply beq_eq in E. subst z. simpl. split.
    + intros [H|H]; [injection H as <- <-; auto|]. right. split; auto. intros ->. apply Fz in H. now rewrite ltb_irr in H.
    + intros [[-> ->]|[N [H|H]]]; auto. congruence.
  - apply beq_neq in E. destruct (bytes_ltb x z) eqn:L; simpl.
    + split.
      * intros [H|[H|H]]; [injection H as <- <-; auto|injection H as <- <-; right; split; [congruence|auto]|].
        right. split; auto. intros ->. apply Fz in H. pose proof (ltb_trans _ _ _ L H) as Q. now rewrite ltb_irr in Q.
      * intros [[-> ->]|[N H]]; auto.
    + rewrite (IH S'). split.
      * intros [H|[H|H]]; [injection H as <- <-; right; split; [congruence|auto]|auto|right; tauto].
      * intros [H|[N [H|H]]]; auto.
Qed.
Lemma sorted_sinsert x v st : sorted st -> sorted (sinsert x v st).
Proof.
  unfold sorted, increasing. induction st as [|[z d] st IH]; simpl; intros S; [repeat constructor|].
  inversion S as [|z0 l0 S' F]; subst. destruct (bytes_eqb x z) eqn:E.
  - apply beq_eq in E. subst z. simpl. constructor; auto.
  - destruct (bytes_ltb x z) eqn:L; simpl.
    + constructor; auto. constructor; auto. rewrite Forall_forall in *. intros w I. eapply ltb_trans; eauto.
    + constructor; auto. rewrite Forall_forall in *. intros w I. apply in_map_iff in I as ([w' e] & <- & I).
      apply (in_sinsert x v st S') in I as [[-> ->]|[_ I]]; [now apply ltb_total|]. apply F. apply in_map_iff. now exists (w', e).
Qed.

(** ** paths in a table *)
Definition below (a : attribute) (q : list bytes) (key : node) (k : what) : Prop :=
  (q = [] /\ key = a_key a /\ k = what_of a) \/
  (q <> [] /\ exists st, set_of (a_value a) = Some st /\ attr_at st q key k).
Lemma attr_at_ne st p key k : attr_at st p key k -> p <> [].
Proof. now destruct 1. Qed.
Lemma attr_at_cons st x q key k : attr_at st (x :: q) key k <-> exists a, In (x, a) st /\ below a q key k.
Proof.
  split.
  - intros H. inversion H; subst.
    + exists a. split; auto. left. auto.
    + exists a. split; auto. right. split; [eapply attr_at_ne; eauto|eauto].
  - intros (a & I & [(-> & -> & ->)|(_ & st' & S & H)]); [now constructor|econstructor; eauto].
Qed.
Lemma attr_at_sinsert x v st q key k y : sorted st ->
  (attr_at (sinsert x v st) (y :: q) key k <-> (y = x /\ below v q key k) \/ (y <> x /\ attr_at st (y :: q) key k)).
Proof.
  intros S. rewrite !attr_at_cons. split.
  - intros (a & I & Bw). apply in_sinsert in I as [[-> ->]|[N I]]; auto. right. split; eauto.
  - intros [[-> Bw]|[N (a & I & Bw)]]; [exists v|exists a]; split; auto; apply in_sinsert; auto.
Qed.
Lemma tidy_sorted st : tidy st -> sorted st.
Proof. now destruct 1. Qed.
Lemma tidy_sub st x a st' : tidy st -> In (x, a) st -> set_of (a_value a) = Some st' -> tidy st'.
Proof. destruct 1; eauto. Qed.
Lemma tidy_kind st x a : tidy st -> In (x, a) st -> a_kind a <> AK_Plain -> set_of (a_value a) = None.
Proof. destruct 1; eauto. Qed.
Lemma tidy_nil : tidy [].
Proof. constructor; simpl; try contradiction. constructor. Qed.
Definition tidy_attr (a : attribute) : Prop :=
  (a_kind a <> AK_Plain -> set_of (a_value a) = None) /\ forall st, set_of (a_value a) = Some st -> tidy st.
Lemma tidy_sinsert x v st : tidy st -> tidy_attr v -> tidy (sinsert x v st).
Proof.
  intros T [V1 V2]. pose proof (tidy_sorted _ T) as S. constructor.
  - now apply sorted_sinsert.
  - intros y c I K. apply in_sinsert in I as [[-> ->]|[_ I]]; eauto using tidy_kind.
  - intros y c st' I Q. apply in_sinsert in I as [[-> ->]|[_ I]]; eauto using tidy_sub.
Qed.
Lemma attr_at_fun st p key k key' k' : tidy st -> attr_at st p key k -> attr_at st p key' k' -> key = key' /\ k = k'.
Proof.
  intros T H. revert key' k' T. induction H as [st x a I|st x a st' p key k I S H IH]; intros key' k' T H'.
  - apply attr_at_cons in H' as (a' & I' & [(_ & -> & ->)|(Q & _)]); [|congruence].
    rewrite (sorted_fun _ _ _ _ (tidy_sorted _ T) I I'). auto.
  - apply attr_at_cons in H' as (a' & I' & Bw). rewrite <- (sorted_fun _ _ _ _ (tidy_sorted _ T) I I') in Bw.
    destruct Bw as [(E & _)|(_ & st2 & S2 & H2)]; [subst; now apply attr_at_ne in H|].
    rewrite S in S2. injection S2 as <-. exact (IH _ _ (tidy_sub _ _ _ _ T I S) H2).
Qed.
Lemma plain_set a st : a_kind a = AK_Plain -> set_of (a_value a) = Some st -> what_of a = ASet.
Proof. unfold what_of. intros -> H. destruct (a_value a); try discriminate. reflexivity. Qed.
Lemma set_plain st x a st' : tidy st -> In (x, a) st -> set_of (a_value a) = Some st' -> a_kind a = AK_Plain.
Proof.
  intros T I S. destruct (a_kind a) eqn:K; auto; rewrite (tidy_kind _ _ _ T I) in S; try discriminate; rewrite K; discriminate.
Qed.
Lemma what_set a : what_of a = ASet -> a_kind a = AK_Plain /\ exists st, set_of (a_value a) = Some st.
Proof.
  unfold what_of. destruct (a_kind a), (a_value a); simpl; try discriminate; eauto; repeat match goal with
    | |- context [match ?n with _ => _ end] => destruct n; try discriminate end; discriminate.
Qed.

(** ** one declaration *)
Definition decl := list bytes -> node -> what -> Prop.
Definition quiet (ds : list diag) : Prop := forall d, In d ds -> d_kind d <> DK_DuplicatedAttrName.
Definition clash (w : nat) (p : list bytes) (k1 k : what) : Prop := w < List.length p \/ k1 <> ASet \/ k <> ASet.
Record step (D : decl) (w : nat) (st st' : table) (news : list diag) : Prop := {
  s_tidy : tidy st';
  s_old : forall p key k, attr_at st p key k -> attr_at st' p key k;
  s_new : forall p key k, attr_at st' p key k -> attr_at st p key k \/ D p key k;
  s_all : quiet news -> forall p key k, D p key k -> k <> AMissing -> exists key', attr_at st' p key' k /\ (k <> ASet -> key' = key);
  s_top : forall x key k, D [x] key k -> k <> AMissing -> exists key' k', attr_at st' [x] key' k';
  s_dup : forall d, In d news -> d_kind d = DK_DuplicatedAttrName ->
          exists p x key k key1 k1, D (p ++ [x]) key k /\ attr_at st (p ++ [x]) key1 k1 /\
            clash w (p ++ [x]) k1 k /\ d = duplicate x key key1;
  s_clash : forall p key k key1 k1, D p key k -> attr_at st p key1 k1 -> clash w p k1 k ->
            exists d, In d news /\ d_kind d = DK_DuplicatedAttrName }.

Lemma step_same D w st st' news : step D w st st' news -> forall D', (forall p key k, D p key k <-> D' p key k) -> step D' w st st' news.
Proof.
  intros [A1 A2 A3 A4 A5 A6 A7] D' E. constructor; auto.
  - intros p key k H. apply A3 in H as [H|H]; auto. right. now apply E.
  - intros Q p key k H. apply A4; auto. now apply E.
  - intros x key k H. apply (A5 x key k). now apply E.
  - intros d I K. destruct (A6 d I K) as (p & x & key & k & key1 & k1 & H & R). exists p, x, key, k, key1, k1. split; auto. now apply E.
  - intros p key k key1 k1 H. apply (A7 p key k). now apply E.
Qed.
Lemma step_none (D : decl) w st news : tidy st -> quiet news -> (forall p key k, ~ D p key k) -> step D w st st news.
Proof.
  intros T Q N. constructor; auto.
  - intros _ p key k H. now apply N in H.
  - intros x key k H. now apply N in H.
  - intros d I K. now apply Q in I.
  - intros p key k key1 k1 H. now apply N in H.
Qed.

(** the declarations of one attribute *)
Definition one (x : bytes) (a : attribute) : decl := fun p key k => exists q, p = x :: q /\ below a q key k.

(** a fresh name *)
Lemma step_insert x a w st news : tidy st -> tidy_attr a -> sfind x st = None -> quiet news ->
  step (one x a) w st (sinsert x a st) news.
Proof.
  intros T Ta F Q. pose proof (tidy_sorted _ T) as S. pose proof (sfind_none _ _ F) as N.
  assert (Fresh : forall q key k, ~ attr_at st (x :: q) key k).
  { intros q key k H. apply attr_at_cons in H as (c & I & _). now apply N in I. }
  constructor.
  - now apply tidy_sinsert.
  - intros [|y q] key k H; [now apply attr_at_ne in H|]. apply attr_at_sinsert; auto. right. split; auto. intros ->. now apply Fresh in H.
  - intros [|y q] key k H; [now apply attr_at_ne in H|]. apply attr_at_sinsert in H as [[-> H]|[_ H]]; auto. right. now exists q.
  - intros _ p key k (q & -> & H) _. exists key. split; auto. apply attr_at_sinsert; auto.
  - intros y key k (q & E & H) _. injection E as <- <-. exists key, k. apply attr_at_sinsert; auto.
  - intros d I K. now apply Q in I.
  - intros p key k key1 k1 (q & -> & H) H1. now apply Fresh in H1.
Qed.

(** a name that is there and cannot be merged *)
Lemma step_reject x (D : decl) w st c key k news : tidy st -> In (x, c) st -> D [x] key k ->
  (forall p key k, D p key k -> exists q, p = x :: q) ->
  (what_of c <> ASet \/ k <> ASet \/ w < 1) -> news = [duplicate x key (a_key c)] ->
  step D w st st news.
Proof.
  intros T I Dx Hd C ->. constructor; auto.
  - intros Q. exfalso. apply (Q (duplicate x key (a_key c))); [now left|reflexivity].
  - intros y key' k' H _. destruct (Hd _ _ _ H) as [q E]. injection E as <- <-. exists (a_key c), (what_of c). now constructor.
  - intros d [<-|[]] _. exists [], x, key, k, (a_key c), (what_of c). simpl.
    split; auto. split; [now constructor|]. split; [|reflexivity].
    unfold clash. simpl. destruct C as [C|[C|C]]; auto.
  - intros. exists (duplicate x key (a_key c)). split; [now left|reflexivity].
Qed.

(** declarations below a set that is there *)
Definition under (x : bytes) (nm : node) (D : decl) : decl :=
  fun p key k => (p = [x] /\ key = nm /\ k = ASet) \/ exists q, p = x :: q /\ q <> [] /\ D q key k.
Lemma step_under x nm c D w st inner inner' v' news :
  tidy st -> In (x, c) st -> set_of (a_value c) = Some inner -> step D w inner inner' news ->
  a_kind c = AK_Plain -> set_of v' = Some inner' -> (forall key k, ~ D [] key k) ->
  step (under x nm D) (S w) st (sinsert x (a_kind c, a_key c, v') st) news.
Proof.
  intros T I Sv St Kc Sv' Nn. pose proof (tidy_sorted _ T) as S. set (c' := (a_kind c, a_key c, v')).
  assert (Lc : what_of c = ASet) by (eapply plain_set; eauto).
  assert (Lc' : what_of c' = ASet) by (eapply plain_set; [exact Kc|exact Sv']).
  assert (Bw : forall q key k, below c q key k -> below c' q key k).
  { intros q key k [(-> & -> & ->)|(N & st0 & E & H)]; [left; rewrite Lc, Lc'; auto|].
    right. split; auto. rewrite Sv in E. injection E as <-. exists inner'. split; auto. eapply s_old; eauto. }
  constructor.
  - apply tidy_sinsert; auto. split; [intros K; unfold c' in K; simpl in K; contradiction|]. unfold c'; simpl. intros st0 E. rewrite Sv' in E. injection E as <-.
    eapply s_tidy; eauto.
  - intros [|y q] key k H; [now apply attr_at_ne in H|]. apply attr_at_sinsert; auto.
    destruct (bytes_eqb y x) eqn:E; [|right; split; [now apply beq_neq|auto]]. apply beq_eq in E. subst y. left. split; auto.
    apply attr_at_cons in H as (a & Ia & H). rewrite (sorted_fun _ _ _ _ S Ia I) in H. now apply Bw.
  - intros [|y q] key k H; [now apply attr_at_ne in H|]. apply attr_at_sinsert in H as [[-> H]|[_ H]]; auto.
    destruct H as [(-> & -> & ->)|(N & st0 & E & H)].
    + left. rewrite Lc', <- Lc. exact (at_here _ _ _ I).
    + change (set_of v' = Some st0) in E. rewrite Sv' in E. injection E as <-. apply (s_new _ _ _ _ _ St) in H as [H|H].
      * left. exact (at_inside _ _ _ _ _ _ _ I Sv H).
      * right. right. exists q. auto.
  - intros Q p key k [(-> & -> & ->)|(q & -> & N & H)] Nm.
    + exists (a_key c). split; [|congruence]. apply attr_at_sinsert; auto. left. split; auto. left. auto.
    + destruct (s_all _ _ _ _ _ St Q q key k H Nm) as (key' & H' & E). exists key'. split; auto.
      apply attr_at_sinsert; auto. left. split; auto. right. split; auto. exists inner'. auto.
  - intros y key k H _. assert (y = x) as -> by (destruct H as [(E & _)|(q & E & _)]; congruence).
    exists (a_key c), ASet. apply attr_at_sinsert; auto. left. split; auto. left. auto.
  - intros d Id Kd. destruct (s_dup _ _ _ _ _ St d Id Kd) as (p & y & key & k & key1 & k1 & H1 & H2 & H3 & H4).
    exists (x :: p), y, key, k, key1, k1. simpl. split; [right; exists (p ++ [y]); split; auto; split; auto; now destruct p|].
    split; [exact (at_inside _ _ _ _ _ _ _ I Sv H2)|]. split; auto. unfold clash in *. simpl. destruct H3 as [H3|H3]; auto. left. lia.
  - intros p key k key1 k1 [(-> & -> & ->)|(q & -> & N & H)] H1 C.
    + exfalso. unfold clash in C. simpl in C. apply attr_at_cons in H1 as (a & Ia & H1). rewrite (sorted_fun _ _ _ _ S Ia I) in H1.
      destruct H1 as [(_ & _ & E)|(E & _)]; [|congruence]. rewrite Lc in E. destruct C as [C|[C|C]]; congruence || lia.
    + apply attr_at_cons in H1 as (a & Ia & H1). rewrite (sorted_fun _ _ _ _ S Ia I) in H1.
      destruct H1 as [(E & _)|(_ & st0 & E & H1)]; [congruence|]. rewrite Sv in E. injection E as <-.
      apply (s_clash _ _ _ _ _ St q key k key1 k1); auto. unfold clash in *. simpl in C. destruct C as [C|C]; auto. left. lia.
Qed.

Lemma step_more D w st st' news n0 n1 : step D w st st' news -> quiet n0 -> quiet n1 -> step D w st st' (n1 ++ news ++ n0).
Proof.
  intros [A1 A2 A3 A4 A5 A6 A7] Q0 Q1. constructor; auto.
  - intros Q. apply A4. intros d I. apply Q. rewrite !in_app_iff. auto.
  - intros d I K. rewrite !in_app_iff in I. destruct I as [I|[I|I]]; auto; exfalso; [now apply Q1 in I|now apply Q0 in I].
  - intros p key k key1 k1 H1 H2 C. destruct (A7 _ _ _ _ _ H1 H2 C) as (d & I & K). exists d. rewrite !in_app_iff. auto.
Qed.
Lemma step_seq (D1 D2 : decl) w st st1 st2 n1 n2 : step D1 w st st1 n1 -> step D2 w st1 st2 n2 ->
  (forall p key k, D2 p key k -> forall key' k', attr_at st1 p key' k' -> attr_at st p key' k') ->
  step (fun p key k => D1 p key k \/ D2 p key k) w st st2 (n2 ++ n1).
Proof.
  intros A B Sep. constructor.
  - eapply s_tidy; eauto.
  - intros p key k H. eapply s_old; eauto. eapply s_old; eauto.
  - intros p key k H. apply (s_new _ _ _ _ _ B) in H as [H|H]; auto. apply (s_new _ _ _ _ _ A) in H as [H|H]; auto.
  - intros Q p key k [H|H] Nm.
    + destruct (s_all _ _ _ _ _ A) with (p := p) (key := key) (k := k) as (key' & H' & E); auto.
      { intros d I. apply Q. rewrite in_app_iff; auto. }
      exists key'. split; auto. eapply s_old; eauto.
    + apply (s_all _ _ _ _ _ B); auto. intros d I. apply Q. rewrite in_app_iff; auto.
  - intros x key k [H|H] Nm; [|eapply (s_top _ _ _ _ _ B); eauto].
    destruct (s_top _ _ _ _ _ A _ _ _ H Nm) as (key' & k' & H'). exists key', k'. eapply s_old; eauto.
  - intros d I K. apply in_app_iff in I as [I|I].
    + destruct (s_dup _ _ _ _ _ B d I K) as (p & x & key & k & key1 & k1 & H1 & H2 & H3). exists p, x, key, k, key1, k1.
      split; auto. split; eauto.
    + destruct (s_dup _ _ _ _ _ A d I K) as (p & x & key & k & key1 & k1 & H1 & H2). exists p, x, key, k, key1, k1. auto.
  - intros p key k key1 k1 [H|H] H1 C.
    + destruct (s_clash _ _ _ _ _ A _ _ _ _ _ H H1 C) as (d & I & K). exists d. rewrite in_app_iff. auto.
    + destruct (s_clash _ _ _ _ _ B _ _ _ _ _ H (s_old _ _ _ _ _ A _ _ _ H1) C) as (d & I & K). exists d. rewrite in_app_iff. auto.
Qed.
Lemma at_nil p key k : ~ attr_at [] p key k.
Proof. intros H. inversion H; subst; contradiction. Qed.
(** declarations below a set that is made for them *)
Lemma step_fresh x nm D w st inner v news :
  tidy st -> sfind x st = None -> step D w [] inner news -> set_of v = Some inner -> (forall key k, ~ D [] key k) ->
  step (under x nm D) (S w) st (sinsert x (AK_Plain, nm, v) st) news.
Proof.
  intros T F St Sv Nn. pose proof (tidy_sorted _ T) as S. pose proof (sfind_none _ _ F) as N.
  set (c := (AK_Plain, nm, v)). assert (Lc : what_of c = ASet) by (eapply plain_set; [reflexivity|exact Sv]).
  assert (Fresh : forall q key k, ~ attr_at st (x :: q) key k).
  { intros q key k H. apply attr_at_cons in H as (a & I & _). now apply N in I. }
  constructor.
  - apply tidy_sinsert; auto. split; [intros K; now elim K|]. intros st0 E. change (set_of v = Some st0) in E. rewrite Sv in E. injection E as <-.
    eapply s_tidy; eauto.
  - intros [|y q] key k H; [now apply attr_at_ne in H|]. apply attr_at_sinsert; auto. right. split; auto. intros ->. now apply Fresh in H.
  - intros [|y q] key k H; [now apply attr_at_ne in H|]. apply attr_at_sinsert in H as [[-> H]|[_ H]]; auto. right.
    destruct H as [(-> & -> & ->)|(Nq & st0 & E & H)]; [left; auto|].
    right. exists q. split; auto. split; auto. change (set_of v = Some st0) in E. rewrite Sv in E. injection E as <-.
    apply (s_new _ _ _ _ _ St) in H as [H|H]; auto. now apply at_nil in H.
  - intros Q p key k [(-> & -> & ->)|(q & -> & Nq & H)] Nm.
    + exists nm. split; [|auto]. apply attr_at_sinsert; auto. left. split; auto. left. auto.
    + destruct (s_all _ _ _ _ _ St Q q key k H Nm) as (key' & H' & E). exists key'. split; auto.
      apply attr_at_sinsert; auto. left. split; auto. right. split; auto. exists inner. auto.
  - intros y key k H _. assert (y = x) as -> by (destruct H as [(E & _)|(q & E & _)]; congruence).
    exists nm, ASet. apply attr_at_sinsert; auto. left. split; auto. left. auto.
  - intros d I K. destruct (s_dup _ _ _ _ _ St d I K) as (p & y & key & k & key1 & k1 & _ & H & _). now apply at_nil in H.
  - intros p key k key1 k1 H H1. exfalso. assert (exists q, p = x :: q) as [q ->] by (destruct H as [(-> & _)|(q & -> & _)]; eauto).
    now apply Fresh in H1.
Qed.

(** ** the actions *)
Definition says (s s' : pst) (news : list diag) : Prop := diags (plex s') = news ++ diags (plex s).
Lemma says_trans s1 s2 s3 n1 n2 : says s1 s2 n1 -> says s2 s3 n2 -> says s1 s3 (n2 ++ n1).
Proof. unfold says. intros -> ->. now rewrite app_assoc. Qed.
Lemma quiet_nil : quiet [].
Proof. intros d []. Qed.
Lemma dupAttr_says x r prev s u s' : dupAttr x r prev s = Ok (u, s') ->
  says s s' [d_note (Note_ NK_PrevDeclared prev []) (d_arg x (diag0 DK_DuplicatedAttrName r))].
Proof. unfold dupAttr, emit. intros H. injection H as <- <-. reflexivity. Qed.
Lemma bind_ok {A B} (m : P A) (f : A -> P B) s r s' : pbind m f s = Ok (r, s') -> exists a s1, m s = Ok (a, s1) /\ f a s1 = Ok (r, s').
Proof. unfold pbind. destruct (m s) as [[a s1]|w|]; try discriminate. eauto. Qed.

Lemma checkRec_says x y s u s' : checkAttrRecursiveForMerge x y s = Ok (u, s') -> exists news, says s s' news /\ quiet news.
Proof.
  unfold checkAttrRecursiveForMerge. destruct (Bool.eqb _ _).
  - intros H. injection H as <- <-. exists []. split; [reflexivity|apply quiet_nil].
  - destruct (if is_some (attrs_rec x) then attrs_rec x else attrs_rec y) as [p|]; [|discriminate].
    unfold emit. intros H. injection H as <- <-. eexists [_]. split; [reflexivity|]. intros d [<-|[]]. discriminate.
Qed.

Lemma one_at (x : bytes) (v : attribute) y p key k : attr_at ((x, v) :: y) p key k <-> one x v p key k \/ attr_at y p key k.
Proof.
  destruct p as [|z p].
  - split; [intros H; now apply attr_at_ne in H|]. intros [(q & E & _)|H]; [discriminate|now apply attr_at_ne in H].
  - rewrite !attr_at_cons. split.
    + intros (a & [I|I] & Bw); [injection I as <- <-; left; exists p; auto|right; eauto].
    + intros [(q & E & Bw)|(a & I & Bw)]; [injection E as <- <-; exists v; simpl; auto|exists a; simpl; auto].
Qed.
Lemma tidy_tail x a y : tidy ((x, a) :: y) -> tidy y /\ tidy_attr a /\ forall c, ~ In (x, c) y.
Proof.
  intros T. split; [|split].
  - constructor.
    + apply tidy_sorted in T. unfold sorted, increasing in T. simpl in T. inversion T; subst. assumption.
    + intros z c I. apply (tidy_kind _ z c T). now right.
    + intros z c st I. apply (tidy_sub _ z c st T). now right.
  - split; [apply (tidy_kind _ x a T); now left|]. intros st S. eapply (tidy_sub _ x a); eauto. now left.
  - intros c I. apply tidy_sorted, sorted_nodup in T. simpl in T. inversion T; subst. apply H1. apply in_map_iff. now exists (x, c).
Qed.

Lemma mergeStatic_step y : forall x s x' s', mergeStatic x y s = Ok (x', s') -> tidy x -> tidy y ->
  exists news, says s s' news /\ step (attr_at y) 0 x x' news.
Proof.
  induction y as [|[k v] y IH]; simpl; intros x s x' s' H Tx Ty.
  - injection H as <- <-. exists []. split; [reflexivity|]. apply step_none; auto using quiet_nil. intros p key w. apply at_nil.
  - destruct (tidy_tail _ _ _ Ty) as (Ty' & Tv & Nk).
    assert (Sep : forall st1, (forall p key w, attr_at st1 p key w -> attr_at x p key w \/ one k v p key w) ->
      forall p key w, attr_at y p key w -> forall key' w', attr_at st1 p key' w' -> attr_at x p key' w').
    { intros st1 Nw p key w A key' w' A1. apply Nw in A1 as [A1|(q & -> & _)]; auto.
      apply attr_at_cons in A as (c & I & _). now apply Nk in I. }
    destruct (sfind k x) as [xv|] eqn:F.
    + apply bind_ok in H as (u & s1 & E & H). apply dupAttr_says in E.
      assert (S1 : step (one k v) 0 x x [duplicate k (a_key v) (a_key xv)]).
      { eapply (step_reject k (one k v) 0 x xv (a_key v) (what_of v)); auto using sfind_in.
        - exists []. split; auto. left. auto.
        - intros p key w (q & -> & _). eauto. }
      destruct (IH _ _ _ _ H Tx Ty') as (n2 & Sy2 & S2). eexists. split; [eapply says_trans; eauto|].
      eapply step_same; [eapply (step_seq _ _ _ _ _ _ _ _ S1 S2)|]; [apply Sep; auto|]. intros p key w. symmetry. apply one_at.
    + assert (S1 : step (one k v) 0 x (sinsert k v x) []) by (apply step_insert; auto using quiet_nil).
      destruct (IH _ _ _ _ H (s_tidy _ _ _ _ _ S1) Ty') as (n2 & Sy2 & S2). exists (n2 ++ []). split; [now rewrite app_nil_r|].
      eapply step_same; [eapply (step_seq _ _ _ _ _ _ _ _ S1 S2)|]; [apply Sep; exact (s_new _ _ _ _ _ S1)|]. intros p key w. symmetry. apply one_at.
Qed.

Lemma sema_set n sa : attrs_sema n = Some sa -> set_of n = Some (sa_static sa).
Proof. destruct n; try discriminate. simpl. intros H. now injection H as <-. Qed.
Lemma sema_set_with n sa st : set_of n = Some st -> set_of (with_sema n sa) = Some (sa_static sa).
Proof. destruct n; try discriminate. reflexivity. Qed.
Lemma sema_none n : attrs_sema n = None -> set_of n = None.
Proof. destruct n; try discriminate; reflexivity. Qed.

Lemma one_pd nm x v p key k : staticName nm = Some x -> (one x (AK_Plain, nm, v) p key k <-> path_declares [nm] (Some v) p key k).
Proof.
  intros E. split.
  - intros (q & -> & [(-> & -> & ->)|(N & st & S & H)]); [exact (pd_last nm x v E)|exact (pd_inside nm x v st q key k E S H)].
  - intros H. inversion H; subst.
    + assert (x0 = x) by congruence. subst. exists []. split; auto. left. auto.
    + assert (x0 = x) by congruence. subst. exists p0. split; auto. right. split; [eapply attr_at_ne; eauto|eauto].
Qed.
Lemma under_pd nm x n2 more v p key k : staticName nm = Some x ->
  (under x nm (path_declares (n2 :: more) v) p key k <-> path_declares (nm :: n2 :: more) v p key k).
Proof.
  intros E. split.
  - intros [(-> & -> & ->)|(q & -> & N & H)]; [now constructor|now constructor].
  - intros H. inversion H; subst; assert (x0 = x) by congruence; subst.
    + left. auto.
    + right. exists p0. split; auto. split; auto. match goal with Q : path_declares _ _ _ _ _ |- _ => inversion Q; discriminate end.
Qed.
Lemma pd_nil names v key k : ~ path_declares names v [] key k.
Proof. intros H. inversion H. Qed.
Lemma pd_dynamic nm more v p key k : staticName nm = None -> ~ path_declares (nm :: more) v p key k.
Proof. intros E H. inversion H; congruence. Qed.

Lemma insertAttr_step sa name v s sa' s' : insertAttr sa name (Some v) AK_Plain s = Ok (sa', s') ->
  tidy (sa_static sa) -> (forall st, set_of v = Some st -> tidy st) ->
  exists news, says s s' news /\ step (path_declares [name] (Some v)) 1 (sa_static sa) (sa_static sa') news.
Proof.
  unfold insertAttr. intros H T Tv. destruct (staticName name) as [sn|] eqn:Sn.
  - destruct (sfind sn (sa_static sa)) as [c|] eqn:F.
    + pose proof (sfind_in _ _ _ F) as I.
      assert (Rej : (what_of c <> ASet \/ what_of (AK_Plain, name, v) <> ASet) ->
        step (path_declares [name] (Some v)) 1 (sa_static sa) (sa_static sa) [duplicate sn name (a_key c)]).
      { intros W. eapply (step_reject sn _ 1 _ c name (what_of (AK_Plain, name, v))); auto.
        - now constructor.
        - intros p key k Q. apply one_pd with (x := sn) in Q as (q & -> & _); eauto.
        - tauto. }
      destruct (attrs_sema (a_value c)) as [xs|] eqn:Xs.
      * destruct (attrs_sema v) as [ys|] eqn:Ys.
        -- apply sema_set in Xs, Ys. apply bind_ok in H as (u & s1 & E & H). apply checkRec_says in E as (n0 & Y0 & Q0).
           unfold mergeAttrSets in H. apply bind_ok in H as (m & s2 & E & H). apply bind_ok in E as (st & s3 & E & E').
           injection E' as <- <-. injection H as <- <-.
           destruct (mergeStatic_step _ _ _ _ _ E (tidy_sub _ _ _ _ T I Xs) (Tv _ Ys)) as (n1 & Y1 & S1).
           exists (n1 ++ n0). split; [eapply says_trans; eauto|]. change (sa_static {| sa_static := ?z; sa_dynamic := _ |}) with z.
           pose proof (step_under sn name c (attr_at (sa_static ys)) 0 (sa_static sa) _ _ (with_sema (a_value c) (SA st (sa_dynamic xs ++ sa_dynamic ys))) n1
             T I Xs S1 (set_plain _ _ _ _ T I Xs) (sema_set_with _ _ _ Xs) (fun key k Z => attr_at_ne _ _ _ _ Z eq_refl)) as St.
           apply (step_more _ _ _ _ _ n0 []) in St; auto using quiet_nil. eapply step_same; [exact St|].
           intros p key k. rewrite <- (one_pd _ _ _ _ _ _ Sn). unfold under, one. split.
           ++ intros [(-> & -> & ->)|(q & -> & N & A)].
              ** exists []. split; auto. left. split; auto. split; auto. symmetry. eapply plain_set; [reflexivity|exact Ys].
              ** exists q. split; auto. right. split; auto. exists (sa_static ys). auto.
           ++ intros (q & -> & [(-> & -> & ->)|(N & st0 & Sv & A)]).
              ** left. split; auto. split; auto. eapply plain_set; [reflexivity|exact Ys].
              ** right. exists q. split; auto. split; auto. change (set_of v = Some st0) in Sv. rewrite Ys in Sv. injection Sv as <-. exact A.
        -- apply bind_ok in H as (u & s1 & E & H). injection H as <- <-. apply dupAttr_says in E. eexists. split; [exact E|]. apply Rej.
           right. intros W. apply what_set in W as (_ & st & W). change (set_of v = Some st) in W. apply sema_none in Ys. congruence.
      * assert (H' : (let! _ := dupAttr sn (nrange name) (nrange (a_key c)) in ret sa) s = Ok (sa', s')) by (destruct v; exact H).
        clear H. apply bind_ok in H' as (u & s1 & E & H). injection H as <- <-. apply dupAttr_says in E. eexists. split; [exact E|]. apply Rej.
        left. intros W. apply what_set in W as (_ & st & W). apply sema_none in Xs. congruence.
    + injection H as <- <-. exists []. split; [reflexivity|]. simpl. eapply step_same; [apply step_insert; auto using quiet_nil|].
      * split; [intros K; now elim K|exact Tv].
      * intros p key k. now apply one_pd.
  - injection H as <- <-. exists []. split; [reflexivity|]. simpl. apply step_none; auto using quiet_nil. intros p key k. now apply pd_dynamic.
Qed.

Lemma insertAttr_step0 sa name s sa' s' : insertAttr sa name None AK_Plain s = Ok (sa', s') -> tidy (sa_static sa) ->
  exists news, says s s' news /\ step (path_declares [name] None) 1 (sa_static sa) (sa_static sa') news.
Proof.
  unfold insertAttr. intros H T.
  assert (Pd : forall p key k, path_declares [name] None p key k -> exists x, staticName name = Some x /\ p = [x] /\ key = name /\ k = AMissing).
  { intros p key k Q. inversion Q; subst. eauto. }
  destruct (staticName name) as [sn|] eqn:Sn.
  - destruct (sfind sn (sa_static sa)) as [c|] eqn:F.
    + assert (H' : (let! _ := dupAttr sn (nrange name) (nrange (a_key c)) in ret sa) s = Ok (sa', s')) by (destruct (attrs_sema (a_value c)); exact H).
      clear H. apply bind_ok in H' as (u & s1 & E & H). injection H as <- <-. apply dupAttr_says in E. eexists. split; [exact E|].
      eapply (step_reject sn _ 1 _ c name AMissing); auto using sfind_in.
      * now constructor.
      * intros p key k Q. apply Pd in Q as (x & Ex & -> & _). injection Ex as <-. now exists [].
      * right. left. discriminate.
    + injection H as <- <-. exists []. split; [reflexivity|]. constructor; auto.
      * intros _ p key k Q Nm. apply Pd in Q as (x & _ & _ & _ & ->). now elim Nm.
      * intros x key k Q Nm. apply Pd in Q as (y & _ & _ & _ & ->). now elim Nm.
      * intros d [].
      * intros p key k key1 k1 Q A. apply Pd in Q as (x & Ex & -> & _). injection Ex as <-. apply attr_at_cons in A as (a & I & _).
        now apply (sfind_none _ _ F) in I.
  - injection H as <- <-. exists []. split; [reflexivity|]. apply step_none; auto using quiet_nil. intros p key k. now apply pd_dynamic.
Qed.

Lemma addAttr_step path : forall sa v s sa' s', addAttr sa path v s = Ok (sa', s') ->
  tidy (sa_static sa) -> (forall v' st, v = Some v' -> set_of v' = Some st -> tidy st) ->
  exists news, says s s' news /\ step (path_declares path v) (List.length path) (sa_static sa) (sa_static sa') news.
Proof.
  induction path as [|name path IH]; intros sa v s sa' s' H T Tv; [discriminate|].
  destruct path as [|n2 more]; [destruct v as [v|]; [exact (insertAttr_step _ _ _ _ _ _ H T (fun st => Tv v st eq_refl))|exact (insertAttr_step0 _ _ _ _ _ H T)]|].
  cbn [addAttr] in H. fold addAttr in H. change ((fix addAttr (sa : sema) (path : list node) (e : option node) {struct path} : P sema := _) ?a ?p ?e) with (addAttr a p e) in H.
  destruct (staticName name) as [sn|] eqn:Sn.
  - destruct (sfind sn (sa_static sa)) as [c|] eqn:F.
    + pose proof (sfind_in _ _ _ F) as I.
      assert (Rej : what_of c <> ASet -> (let! _ := dupAttr sn (nrange name) (nrange (a_key c)) in ret sa) s = Ok (sa', s') ->
        exists news, says s s' news /\ step (path_declares (name :: n2 :: more) v) (List.length (name :: n2 :: more)) (sa_static sa) (sa_static sa') news).
      { intros W H'. apply bind_ok in H' as (u & s1 & E & H'). injection H' as <- <-. apply dupAttr_says in E. eexists. split; [exact E|].
        eapply (step_reject sn _ _ _ c name ASet); auto.
        - now constructor.
        - intros p key k Q. apply (under_pd name sn) in Q; auto. destruct Q as [(-> & _)|(q & -> & _)]; eauto. }
      destruct (fromInherit c) eqn:Fi.
      * apply Rej; [|exact H]. intros W. apply what_set in W as (K & _). unfold fromInherit in Fi. now rewrite K in Fi.
      * destruct (attrs_sema (a_value c)) as [inner|] eqn:Xs.
        -- apply sema_set in Xs. apply bind_ok in H as (inner' & s1 & E & H). injection H as <- <-.
           destruct (IH _ _ _ _ _ E (tidy_sub _ _ _ _ T I Xs) Tv) as (news & Y & St). exists news. split; auto. simpl sa_static.
           eapply step_same; [eapply (step_under sn name c); eauto using set_plain, sema_set_with|].
           ++ intros key k. apply pd_nil.
           ++ intros p key k. now apply under_pd.
        -- apply Rej; [|exact H]. intros W. apply what_set in W as (_ & st & W). apply sema_none in Xs. congruence.
    + apply bind_ok in H as (inner' & s1 & E & H). apply bind_ok in H as (n & s2 & E2 & H). injection H as <- <-.
      unfold mkNested, fresh in E2. apply bind_ok in E2 as (i & s3 & E2 & E3). injection E2 as <- <-. injection E3 as <- <-.
      destruct (IH _ _ _ _ _ E tidy_nil Tv) as (news & Y & St). exists news. split; [exact Y|]. simpl sa_static.
      eapply step_same; [eapply (step_fresh sn name); [exact T|exact F|exact St|reflexivity|]|].
      * intros key k. apply pd_nil.
      * intros p key k. now apply under_pd.
  - apply bind_ok in H as (inner' & s1 & E & H). apply bind_ok in H as (n & s2 & E2 & H). injection H as <- <-.
    unfold mkNested, fresh in E2. apply bind_ok in E2 as (i & s3 & E2 & E3). injection E2 as <- <-. injection E3 as <- <-.
    destruct (IH _ _ _ _ _ E tidy_nil Tv) as (news & Y & St). exists news. split; [exact Y|]. simpl.
    apply step_none; auto.
    + intros d Id K. destruct (s_dup _ _ _ _ _ St d Id K) as (p & y & key & k & key1 & k1 & _ & Q & _). now apply at_nil in Q.
    + intros p key k. now apply pd_dynamic.
Qed.

Lemma lowerInheritName_step sa name e v k s1 s sa' s' : desugarInheritExpr name e s1 = Ok ((v, k), s) ->
  lowerInheritName sa name v k s = Ok (sa', s') -> tidy (sa_static sa) ->
  exists news, says s s' news /\ step (declares_attr (Inherited name e)) 1 (sa_static sa) (sa_static sa') news /\
    (staticName name = None -> exists d, In d news /\ d_kind d = DK_DynamicInherit /\ d_range d = nrange name) /\
    (forall d, In d news -> d_kind d = DK_DynamicInherit -> staticName name = None /\ d_range d = nrange name).
Proof.
  intros Dg H T. unfold lowerInheritName in H. destruct (staticName name) as [sn|] eqn:Sn.
  - assert (W : k <> AK_Plain /\ set_of v = None /\ what_of (k, name, v) = match e with None => AVar sn | Some ex => ASelect ex name end).
    { unfold desugarInheritExpr in Dg. destruct e as [ex|].
      - apply bind_ok in Dg as (p & s2 & Ep & Dg). apply bind_ok in Dg as (i & s3 & Ei & Dg). injection Dg as <- <- _. split; [discriminate|]. split; reflexivity.
      - destruct name; try discriminate. match type of Dg with match ?n with _ => _ end _ = _ => destruct n; try discriminate end.
        apply bind_ok in Dg as (p & s2 & Ep & Dg). injection Dg as <- <- _. simpl in Sn. injection Sn as ->.
        split; [discriminate|]. split; reflexivity. }
    destruct W as (W1 & W2 & W3).
    assert (Eq : forall p key w, one sn (k, name, v) p key w <-> declares_attr (Inherited name e) p key w).
    { intros p key w. simpl. split.
      - intros (q & -> & [(-> & -> & ->)|(_ & st & S & _)]); [exists sn; auto|]. change (set_of v = Some st) in S. congruence.
      - intros (x & E1 & -> & -> & ->). assert (x = sn) by congruence. subst. exists []. split; auto. left. rewrite W3. auto. }
    destruct (sfind sn (sa_static sa)) as [c|] eqn:F.
    + apply bind_ok in H as (u & s2 & E & H). injection H as <- <-. apply dupAttr_says in E. eexists. split; [exact E|]. split.
      * eapply step_same; [|exact Eq]. eapply (step_reject sn _ _ _ c name (what_of (k, name, v))); auto using sfind_in.
        -- exists []. split; auto. left. auto.
        -- intros p key w (q & -> & _). eauto.
        -- right. left. rewrite W3. destruct e; discriminate.
      * split; [discriminate|]. intros d [<-|[]]. discriminate.
    + injection H as <- <-. exists []. split; [reflexivity|]. split.
      * eapply step_same; [|exact Eq]. apply step_insert; auto using quiet_nil. split; [auto|]. intros st S. change (set_of v = Some st) in S. congruence.
      * split; [discriminate|]. intros d [].
  - apply bind_ok in H as (f & s2 & E & H). apply bind_ok in H as (u & s3 & E2 & H). injection H as <- <-.
    assert (s2 = s) as ->.
    { unfold fix1 in E. apply bind_ok in E as (ed & s4 & E & E'). injection E' as _ <-. unfold lift in E. destruct (mkRemoval _); try discriminate.
      now injection E as _ <-. }
    unfold emit in E2. injection E2 as <- <-. eexists [_]. split; [reflexivity|]. split; [|split].
    + apply step_none; auto.
      * intros d [<-|[]]. discriminate.
      * intros p key w (x & E1 & _). congruence.
    + intros _. eexists. split; [now left|]. split; reflexivity.
    + intros d [<-|[]] _. auto.
Qed.

(** ** all declarations *)
Record run_ (its : list item) (st st' : table) (news : list diag) : Prop := {
  r_tidy : tidy st';
  r_old : forall p key k, attr_at st p key k -> attr_at st' p key k;
  r_new : forall p key k, attr_at st' p key k ->
          attr_at st p key k \/ exists it, In it its /\ declares_attr it p key k;
  r_all : quiet news -> forall it p key k, In it its -> declares_attr it p key k -> k <> AMissing ->
          exists key', attr_at st' p key' k /\ (k <> ASet -> key' = key);
  r_dup : forall d, In d news -> d_kind d = DK_DuplicatedAttrName ->
          exists pre it post p x key k key1 k1, its = pre ++ it :: post /\ declares_attr it (p ++ [x]) key k /\
            (attr_at st (p ++ [x]) key1 k1 \/ exists it1, In it1 pre /\ declares_attr it1 (p ++ [x]) key1 k1) /\
            clashes it (p ++ [x]) k1 k /\ d = duplicate x key key1;
  r_clash : forall pre it post p key k key1 k1, its = pre ++ it :: post -> declares_attr it p key k ->
            (attr_at st p key1 k1 \/ exists it1, In it1 pre /\ declares_attr it1 p key1 k1 /\ k1 <> AMissing) ->
            clashes it p k1 k -> exists d, In d news /\ d_kind d = DK_DuplicatedAttrName;
  r_top : forall x it key k, In it its -> declares_attr it [x] key k -> k <> AMissing -> exists key' k', attr_at st' [x] key' k';
  r_first : forall x key k, attr_at st' [x] key k -> attr_at st [x] key k \/
            ((forall key0 k0, ~ attr_at st [x] key0 k0) /\
             exists pre it post, its = pre ++ it :: post /\ declares_attr it [x] key k /\
               forall it' key' k', In it' pre -> declares_attr it' [x] key' k' -> k' = AMissing) }.

Lemma at_dec st x : tidy st -> (exists key k, attr_at st [x] key k) \/ forall key k, ~ attr_at st [x] key k.
Proof.
  intros T. destruct (sfind x st) as [a|] eqn:F.
  - left. exists (a_key a), (what_of a). constructor. now apply sfind_in.
  - right. intros key k H. apply attr_at_cons in H as (a & I & _). now apply (sfind_none _ _ F a).
Qed.
Definition isdup (d : diag) : bool := match d_kind d with DK_DuplicatedAttrName => true | _ => false end.
Lemma quiet_dec news : quiet news \/ exists d, In d news /\ d_kind d = DK_DuplicatedAttrName.
Proof.
  destruct (existsb isdup news) eqn:E.
  - right. apply existsb_exists in E as (d & I & K). exists d. split; auto. unfold isdup in K. now destruct (d_kind d).
  - left. intros d I K. assert (existsb isdup news = true); [|congruence]. apply existsb_exists. exists d. split; auto. unfold isdup. now rewrite K.
Qed.

Lemma run_one it st st' news : tidy st -> step (declares_attr it) (width it) st st' news -> run_ [it] st st' news.
Proof.
  intros T S. constructor.
  - eapply s_tidy; eauto.
  - eapply s_old; eauto.
  - intros p key k H. apply (s_new _ _ _ _ _ S) in H as [H|H]; auto. right. exists it. simpl. auto.
  - intros Q it' p key k [<-|[]]. now apply (s_all _ _ _ _ _ S Q).
  - intros d I K. destruct (s_dup _ _ _ _ _ S d I K) as (p & x & key & k & key1 & k1 & H1 & H2 & H3 & H4).
    exists [], it, [], p, x, key, k, key1, k1. auto 10.
  - intros pre it' post p key k key1 k1 E D A C. destruct pre as [|y pre]; [|destruct pre; discriminate].
    injection E as <- <-. destruct A as [A|(it1 & [] & _)]. exact (s_clash _ _ _ _ _ S _ _ _ _ _ D A C).
  - intros x it' key k [<-|[]]. now apply (s_top _ _ _ _ _ S).
  - intros x key k H. destruct (s_new _ _ _ _ _ S _ _ _ H) as [H'|H']; auto.
    destruct (at_dec st x T) as [(key0 & k0 & A)|N].
    + left. destruct (attr_at_fun _ _ _ _ _ _ (s_tidy _ _ _ _ _ S) H (s_old _ _ _ _ _ S _ _ _ A)) as [-> ->]. exact A.
    + right. split; auto. exists [], it, []. split; auto. split; auto. intros ? ? ? [].
Qed.
Lemma run_none st news : tidy st -> quiet news -> run_ [] st st news.
Proof.
  intros T Q. constructor; auto; try contradiction.
  - intros d I K. now apply Q in I.
  - intros pre it post. destruct pre; discriminate.
Qed.
Lemma app_split {A} (x1 x2 y1 y2 : list A) : x1 ++ x2 = y1 ++ y2 ->
  exists l, (x1 = y1 ++ l /\ y2 = l ++ x2) \/ (y1 = x1 ++ l /\ x2 = l ++ y2).
Proof.
  revert y1. induction x1 as [|a x1 IH]; intros y1 E; [exists y1; right; auto|].
  destruct y1 as [|c y1]; [exists (a :: x1); left; auto|]. simpl in E. injection E as <- E. destruct (IH _ E) as (l & [[-> ->]|[-> ->]]); exists l; auto.
Qed.
Lemma run_app i1 i2 st st1 st2 n1 n2 : run_ i1 st st1 n1 -> run_ i2 st1 st2 n2 -> run_ (i1 ++ i2) st st2 (n2 ++ n1).
Proof.
  intros A B. constructor.
  - eapply r_tidy; eauto.
  - intros p key k H. eapply r_old; eauto. eapply r_old; eauto.
  - intros p key k H. apply (r_new _ _ _ _ B) in H as [H|(it & I & H)]; [|right; exists it; rewrite in_app_iff; auto].
    apply (r_new _ _ _ _ A) in H as [H|(it & I & H)]; auto. right. exists it. rewrite in_app_iff. auto.
  - intros Q it p key k I D Nm. apply in_app_iff in I as [I|I].
    + destruct (r_all _ _ _ _ A) with (it := it) (p := p) (key := key) (k := k) as (key' & H & E); auto.
      { intros d Id. apply Q. rewrite in_app_iff. auto. }
      exists key'. split; auto. eapply r_old; eauto.
    + apply (r_all _ _ _ _ B) with (it := it); auto. intros d Id. apply Q. rewrite in_app_iff. auto.
  - intros d I K. apply in_app_iff in I as [I|I].
    + destruct (r_dup _ _ _ _ B d I K) as (pre & it & post & p & x & key & k & key1 & k1 & -> & D & E1 & C & E).
      exists (i1 ++ pre), it, post, p, x, key, k, key1, k1. split; [now rewrite app_assoc|]. split; auto. split; [|auto].
      destruct E1 as [E1|(it1 & I1 & D1)]; [|right; exists it1; rewrite in_app_iff; auto].
      apply (r_new _ _ _ _ A) in E1 as [E1|(it1 & I1 & D1)]; auto. right. exists it1. rewrite in_app_iff. auto.
    + destruct (r_dup _ _ _ _ A d I K) as (pre & it & post & p & x & key & k & key1 & k1 & -> & D & E1 & C & E).
      exists pre, it, (post ++ i2), p, x, key, k, key1, k1. split; [now rewrite <- app_assoc|]. auto.
  - intros pre it post p key k key1 k1 E D Ea C. destruct (quiet_dec n1) as [Q|(d & Id & Kd)]; [|exists d; rewrite in_app_iff; auto].
    assert (Late : forall pre2, i2 = pre2 ++ it :: post -> (forall it1, In it1 pre -> In it1 i1 \/ In it1 pre2) ->
                   exists d, In d (n2 ++ n1) /\ d_kind d = DK_DuplicatedAttrName).
    { intros pre2 E2 Hp.
      assert (R : exists key2, attr_at st1 p key2 k1 \/ exists it1, In it1 pre2 /\ declares_attr it1 p key2 k1 /\ k1 <> AMissing).
      { destruct Ea as [Ea|(it1 & I1 & D1 & Nm)]; [exists key1; left; eapply r_old; eauto|].
        destruct (Hp _ I1) as [I2|I2]; [|exists key1; eauto 6]. destruct (r_all _ _ _ _ A Q it1 p key1 k1) as (key' & H & _); eauto. }
      destruct R as (key2 & R). destruct (r_clash _ _ _ _ B pre2 it post p key k key2 k1) as (d & Id & Kd); auto.
      exists d. rewrite in_app_iff. auto. }
    apply app_split in E as (l & [[-> E]|[-> E]]).
    + destruct l as [|y l]; [simpl in E; subst i2|].
      * apply (Late []); auto. intros it1 I1. rewrite in_app_iff. auto.
      * simpl in E. injection E as <- ->.
        destruct (r_clash _ _ _ _ A pre it l p key k key1 k1) as (d & Id & Kd); auto. exists d. rewrite in_app_iff. auto.
    + apply (Late l); auto. intros it1 I1. now apply in_app_iff.
  - intros x it key k I D Nm. apply in_app_iff in I as [I|I]; [|eapply r_top; eauto].
    destruct (r_top _ _ _ _ A _ _ _ _ I D Nm) as (key' & k' & H). exists key', k'. eapply r_old; eauto.
  - intros x key k H. destruct (r_first _ _ _ _ B _ _ _ H) as [H1|(N & pre & it & post & -> & D & Np)].
    + destruct (r_first _ _ _ _ A _ _ _ H1) as [H2|(N & pre & it & post & -> & D & Np)]; auto.
      right. split; auto. exists pre, it, (post ++ i2). rewrite <- app_assoc. auto.
    + right. split; [intros key0 k0 Z; apply (N key0 k0); eapply r_old; eauto|].
      exists (i1 ++ pre), it, post. rewrite <- app_assoc. split; auto. split; auto.
      intros it' key' k' I D'. apply in_app_iff in I as [I|I]; [|eapply Np; eauto].
      destruct k' as [| | | |]; [exfalso|exfalso|exfalso|exfalso|reflexivity];
        (destruct (r_top _ _ _ _ A _ _ _ _ I D') as (key2 & k2 & Z); [discriminate|]; eapply N; eauto).
Qed.

Definition dynamic_names (its : list item) (news : list diag) : Prop :=
  (forall name e, In (Inherited name e) its -> staticName name = None ->
     exists d, In d news /\ d_kind d = DK_DynamicInherit /\ d_range d = nrange name) /\
  (forall d, In d news -> d_kind d = DK_DynamicInherit ->
     exists name e, In (Inherited name e) its /\ staticName name = None /\ d_range d = nrange name).
Lemma dynamic_app i1 i2 n1 n2 : dynamic_names i1 n1 -> dynamic_names i2 n2 -> dynamic_names (i1 ++ i2) (n2 ++ n1).
Proof.
  intros [A1 A2] [B1 B2]. split.
  - intros name e I N. apply in_app_iff in I as [I|I].
    + destruct (A1 _ _ I N) as (d & Id & H). exists d. rewrite in_app_iff. auto.
    + destruct (B1 _ _ I N) as (d & Id & H). exists d. rewrite in_app_iff. auto.
  - intros d I K. apply in_app_iff in I as [I|I].
    + destruct (B2 _ I K) as (n & e & H & E). exists n, e. rewrite in_app_iff. auto.
    + destruct (A2 _ I K) as (n & e & H & E). exists n, e. rewrite in_app_iff. auto.
Qed.

Lemma desugar_says name e s v s' : desugarInheritExpr name e s = Ok (v, s') -> says s s' [].
Proof.
  unfold desugarInheritExpr. destruct e as [ex|].
  - intros H. apply bind_ok in H as (p & s2 & Ep & H). apply bind_ok in H as (i & s3 & Ei & H). injection H as _ <-.
    unfold fresh in *. injection Ep as _ <-. injection Ei as _ <-. reflexivity.
  - destruct name; try discriminate. match goal with |- match ?n with _ => _ end _ = _ -> _ => destruct n; try discriminate end.
    intros H. apply bind_ok in H as (p & s2 & Ep & H). injection H as _ <-. injection Ep as _ <-. reflexivity.
Qed.

Lemma lowerInherit_run names e : forall sa s sa' s', lowerInherit sa names e s = Ok (sa', s') -> tidy (sa_static sa) ->
  exists news, says s s' news /\ run_ (map (fun n => Inherited n e) names) (sa_static sa) (sa_static sa') news /\
    dynamic_names (map (fun n => Inherited n e) names) news.
Proof.
  induction names as [|n names IH]; intros sa s sa' s' H T.
  - injection H as <- <-. exists []. split; [reflexivity|]. split; [apply run_none; auto using quiet_nil|]. split; [intros ? ? []|intros ? []].
  - simpl in H. apply bind_ok in H as ([v k] & s1 & E1 & H). apply bind_ok in H as (sa1 & s2 & E2 & H).
    pose proof (desugar_says _ _ _ _ _ E1) as S0.
    destruct (lowerInheritName_step _ _ _ _ _ _ _ _ _ E1 E2 T) as (n1 & S1 & St & N1 & N2).
    destruct (IH _ _ _ _ H (s_tidy _ _ _ _ _ St)) as (n2 & S2 & R & Dn).
    exists (n2 ++ n1). split; [|split].
    + rewrite <- (app_nil_r n1). eapply says_trans; [|exact S2]. eapply says_trans; eauto.
    + apply (run_app [_]) with (st1 := sa_static sa1); auto. now apply run_one.
    + apply (dynamic_app [_]); auto. split.
      * intros name e' [Z|[]] N. injection Z as <- <-. auto.
      * intros d I K. exists n, e. split; [now left|]. eauto.
Qed.

(** bindings never report a dynamic name in an inherit *)
Definition plainly (s s' : pst) : Prop := exists news, says s s' news /\ forall d, In d news -> d_kind d <> DK_DynamicInherit.
Lemma plainly_same s : plainly s s.
Proof. exists []. split; [reflexivity|]. intros d []. Qed.
Lemma plainly_trans s1 s2 s3 : plainly s1 s2 -> plainly s2 s3 -> plainly s1 s3.
Proof.
  intros (n1 & S1 & Q1) (n2 & S2 & Q2). exists (n2 ++ n1). split; [eapply says_trans; eauto|].
  intros d I. apply in_app_iff in I as [I|I]; auto.
Qed.
Lemma plainly_dup x r prev s u s' : dupAttr x r prev s = Ok (u, s') -> plainly s s'.
Proof. intros H. apply dupAttr_says in H. eexists. split; [exact H|]. intros d [<-|[]]. discriminate. Qed.
Lemma plainly_dup2 {A} x r prev (sa : A) s sa' s' : (do! dupAttr x r prev in ret sa) s = Ok (sa', s') -> plainly s s'.
Proof. intros H. apply bind_ok in H as (u & s1 & E & H). injection H as _ <-. eapply plainly_dup; eauto. Qed.
Lemma mergeStatic_plainly y : forall x s st s', mergeStatic x y s = Ok (st, s') -> plainly s s'.
Proof.
  induction y as [|[k v] y IH]; intros x s st s' H; simpl in H.
  - injection H as _ <-. apply plainly_same.
  - destruct (sfind k x); [|eauto]. apply bind_ok in H as (u & s1 & E & H). eapply plainly_trans; [eapply plainly_dup; eauto|eauto].
Qed.
Lemma checkRec_plainly x y s u s' : checkAttrRecursiveForMerge x y s = Ok (u, s') -> plainly s s'.
Proof.
  unfold checkAttrRecursiveForMerge. destruct (Bool.eqb _ _).
  - intros H. injection H as _ <-. apply plainly_same.
  - destruct (if is_some (attrs_rec x) then attrs_rec x else attrs_rec y) as [p|]; [|discriminate].
    unfold emit. intros H. injection H as <- <-. eexists [_]. split; [reflexivity|]. intros d [<-|[]]. discriminate.
Qed.
Lemma insertAttr_plainly sa name e k s sa' s' : insertAttr sa name e k s = Ok (sa', s') -> plainly s s'.
Proof.
  unfold insertAttr. intros H. destruct (staticName name).
  - destruct (sfind _ _) as [v|].
    + destruct (attrs_sema (a_value v)) as [xs|]; [|eapply plainly_dup2; eauto]. destruct e as [en|]; [|eapply plainly_dup2; eauto].
      destruct (attrs_sema en) as [ys|]; [|eapply plainly_dup2; eauto].
      apply bind_ok in H as (u & s1 & E1 & H). apply bind_ok in H as (m & s2 & E2 & H). injection H as _ <-.
      unfold mergeAttrSets in E2. apply bind_ok in E2 as (st & s3 & E3 & E4). injection E4 as _ <-.
      eapply plainly_trans; [eapply checkRec_plainly; eauto|eapply mergeStatic_plainly; eauto].
    + destruct e; injection H as _ <-; apply plainly_same.
  - destruct e; injection H as _ <-; apply plainly_same.
Qed.
Lemma mkNested_plainly name inner s n s' : mkNested name inner s = Ok (n, s') -> plainly s s'.
Proof.
  intros H. unfold mkNested in H. apply bind_ok in H as (i & s1 & E & H). injection H as _ <-. injection E as _ <-.
  exists []. split; [reflexivity|]. intros d [].
Qed.
Lemma addAttr_plainly path : forall sa e s sa' s', addAttr sa path e s = Ok (sa', s') -> plainly s s'.
Proof.
  induction path as [|name path IH]; intros sa e s sa' s' H; [discriminate|].
  destruct path as [|n2 more]; [eapply insertAttr_plainly; exact H|].
  cbn [addAttr] in H. fold addAttr in H. change ((fix addAttr (sa : sema) (path : list node) (e : option node) {struct path} : P sema := _) ?a ?p ?e) with (addAttr a p e) in H.
  destruct (staticName name).
  - destruct (sfind _ _) as [v|].
    + destruct (fromInherit v); [eapply plainly_dup2; eauto|]. destruct (attrs_sema _); [|eapply plainly_dup2; eauto].
      apply bind_ok in H as (u & s1 & E1 & H). injection H as _ <-. eapply IH; exact E1.
    + apply bind_ok in H as (u & s1 & E1 & H). apply bind_ok in H as (n & s2 & E2 & H). injection H as _ <-.
      eapply plainly_trans; [eapply IH; exact E1|eapply mkNested_plainly; eauto].
  - apply bind_ok in H as (u & s1 & E1 & H). apply bind_ok in H as (n & s2 & E2 & H). injection H as _ <-.
    eapply plainly_trans; [eapply IH; exact E1|eapply mkNested_plainly; eauto].
Qed.

Lemma lowerBinds_run bs : forall sa s sa' s', lowerBinds sa bs s = Ok (sa', s') -> tidy (sa_static sa) ->
  literals_tidy bs ->
  exists news, says s s' news /\ run_ (items bs) (sa_static sa) (sa_static sa') news /\ dynamic_names (items bs) news.
Proof.
  induction bs as [|q bs IH]; intros sa s sa' s' H T So.
  - injection H as <- <-. exists []. split; [reflexivity|]. split; [apply run_none; auto using quiet_nil|]. split; [intros ? ? []|intros ? []].
  - assert (L2 : literals_tidy bs). { intros names v st I. apply (So names v st). simpl. apply in_app_iff. auto. }
    cbn [lowerBinds] in H. destruct q; try discriminate.
    + apply bind_ok in H as (sa1 & s1 & E & H). destruct q; try (simpl in E; discriminate).
      simpl path_names in E. destruct (addAttr_step _ _ _ _ _ _ E T) as (n1 & S1 & St).
      { intros v st -> Es. eapply So; [|exact Es]. simpl. now left. }
      destruct (IH _ _ _ _ H (s_tidy _ _ _ _ _ St) L2) as (n2 & S2 & R & Dn).
      exists (n2 ++ n1). split; [eapply says_trans; eauto|]. split.
      * apply (run_app [_]) with (st1 := sa_static sa1); auto. now apply run_one.
      * apply (dynamic_app [_]); auto. split; [intros ? ? [Z|[]]; discriminate|].
        intros d I K. exfalso. destruct (addAttr_plainly _ _ _ _ _ _ E) as (n3 & S3 & Q3). unfold says in S1, S3.
        rewrite S1 in S3. apply app_inv_tail in S3 as ->. now apply (Q3 d).
    + apply bind_ok in H as (sa1 & s1 & E & H). destruct (lowerInherit_run _ _ _ _ _ _ E T) as (n1 & S1 & R1 & D1).
      destruct (IH _ _ _ _ H (r_tidy _ _ _ _ R1) L2) as (n2 & S2 & R & Dn).
      exists (n2 ++ n1). split; [eapply says_trans; eauto|]. split; [eapply run_app; eauto|now apply dynamic_app].
Qed.

(** ** formals *)
Definition tells (s s' : pst) (rs : list report) : Prop :=
  exists news, says s s' news /\ map brief (rev news) = rs.
Lemma tells_nil s : tells s s [].
Proof. exists []. split; reflexivity. Qed.
Lemma tells_app s1 s2 s3 r1 r2 : tells s1 s2 r1 -> tells s2 s3 r2 -> tells s1 s3 (r1 ++ r2).
Proof.
  intros (n1 & S1 & <-) (n2 & S2 & <-). exists (n2 ++ n1). split; [eapply says_trans; eauto|]. now rewrite rev_app_distr, map_app.
Qed.
Lemma emit_tells d s u s' : emit d s = Ok (u, s') -> tells s s' [brief d].
Proof. unfold emit. intros H. injection H as <- <-. exists [d]. split; reflexivity. Qed.
Lemma lift_same {A} (m : res A) s x s' : lift m s = Ok (x, s') -> s' = s.
Proof. unfold lift. destruct m; try discriminate. intros H. now injection H as _ <-. Qed.
Lemma fix1_same w m s f s' : fix1 w m s = Ok (f, s') -> s' = s.
Proof. unfold fix1. intros H. apply bind_ok in H as (e & s1 & E & H). injection H as _ <-. eapply lift_same; eauto. Qed.

Lemma lift_edit r t s x s' : lift (mkEdit r t) s = Ok (x, s') -> x = TEdit r t /\ s' = s.
Proof. unfold lift, mkEdit. destruct (edit_ok r t); [|discriminate]. intros H. now injection H as <- <-. Qed.
Lemma sep_tells fv : forall pre first s u s', checkFormalSep first fv s = Ok (u, s') ->
  (first = true <-> pre = []) ->
  tells s s' (flat_map (fun '(pre, f, post) =>
    match pre, comma_of f with
    | _ :: _, None => [(DK_FormalMissingComma, nrange f, [], [[insert (nl f) (b ",")]])]
    | _, _ => []
    end) (places pre fv)).
Proof.
  induction fv as [|f fv IH]; intros pre first s u s' H E; simpl in H; [injection H as _ <-; apply tells_nil|].
  apply bind_ok in H as (v & s1 & E1 & H). simpl. eapply tells_app; [|eapply IH; [exact H|]].
  2: { split; [discriminate|]. destruct pre; discriminate. }
  change (f_comma f) with (comma_of f) in E1. destruct pre as [|p0 pre], first; simpl in E1; try (exfalso; destruct E as [E2 E3]; (discriminate (E2 eq_refl) || discriminate (E3 eq_refl))).
  - injection E1 as _ <-. destruct (comma_of f); apply tells_nil.
  - destruct (comma_of f); simpl in E1; [injection E1 as _ <-; apply tells_nil|]. apply bind_ok in E1 as (x & s2 & E2 & E1).
    unfold fix1 in E2. apply bind_ok in E2 as (ed & s3 & E2 & E3). apply lift_edit in E2 as [-> ->]. injection E3 as <- <-. now apply emit_tells in E1.
Qed.

Lemma removeFormal_edits pre first f after s es s' : removeFormal first f after s = Ok (es, s') -> (first = true <-> pre = []) ->
  es = take_out pre f after.
Proof.
  unfold removeFormal, take_out. intros H E. apply bind_ok in H as (e & s1 & E1 & H). apply lift_edit in E1 as [-> ->].
  destruct pre as [|p0 pre], first; try (exfalso; destruct E as [E2 E3]; (discriminate (E2 eq_refl) || discriminate (E3 eq_refl)));
    destruct after as [|f2 after]; try (now injection H as <- _). change (f_comma f2) with (comma_of f2) in H.
  destruct (comma_of f2); [|now injection H as <- _].
  apply bind_ok in H as (e2 & s2 & E2 & H). apply lift_edit in E2 as [-> ->]. now injection H as <- _.
Qed.
Lemma removeFormal_same first f after s es s' : removeFormal first f after s = Ok (es, s') -> s' = s.
Proof.
  unfold removeFormal. intros H. apply bind_ok in H as (e & s1 & E & H). apply lift_same in E as ->.
  destruct first, after as [|f2 after]; try (now injection H as _ <-). destruct (f_comma f2); [|now injection H as _ <-].
  apply bind_ok in H as (e2 & s2 & E & H). apply lift_same in E as ->. now injection H as _ <-.
Qed.
Lemma last_cons {A} (l : list A) x d d' : last (x :: l) d = last (x :: l) d'.
Proof. revert x. induction l as [|y l IH]; intros x; [reflexivity|]. change (last (y :: l) d = last (y :: l) d'). apply IH. Qed.
Lemma ellipsis_eq src first L f f2 fv : checkFormalEllipsis_f src first L (f :: f2 :: fv) =
  (do! (if is_some (f_ell f) then
             if is_some (f_ell L) then
               let! es := removeFormal first f (f2 :: fv) in
               emit (d_fix (Fix_ (b "remove `...`") es) (diag0 DK_FormalExtraEllipsis (nrange f)))
             else
               let! es := removeFormal first f (f2 :: fv) in
               let! text := lift (nsrc src f) in
               let text' := if is_some (f_comma f) then text else b ", " ++ text in
               let! e := lift (mkInsertion (nr L) text') in
               emit (d_fix (Fix_ (b "move ellipsis to the tail") (es ++ [e]))
                           (diag0 DK_FormalMisplacedEllipsis (nrange f)))
           else ret tt) in
      checkFormalEllipsis_f src false L (f2 :: fv)).
Proof. reflexivity. Qed.
Lemma empty_eq f f2 fv : checkFormalEmpty (f :: f2 :: fv) =
      (do! (if is_some (f_comma f) && negb (is_some (f_id f)) && negb (is_some (f_ell f)) then
             let! x := fix1 (b "remove empty formal") (mkRemoval (nrange f)) in
             emit (d_tag Faded (d_fix x (diag0 DK_EmptyFormal (nrange f))))
           else ret tt) in
      checkFormalEmpty (f2 :: fv)).
Proof. reflexivity. Qed.
Lemma nsrc_written src f s x s' : lift (nsrc src f) s = Ok (x, s') -> off (nl f) <= off (nr f) -> x = written src f /\ s' = s.
Proof.
  intros H L. unfold nsrc in H. destruct (Nat.ltb (List.length src) (off (nl f))); [discriminate|].
  assert (Nat.ltb (off (nr f)) (off (nl f)) = false) as E by (apply Nat.ltb_ge; exact L). rewrite E in H. now injection H as <- <-.
Qed.
Lemma ellipsis_tells src fv : forall pre first d s u s', checkFormalEllipsis_f src first (last fv d) fv s = Ok (u, s') ->
  forward fv -> (first = true <-> pre = []) ->
  tells s s' (flat_map (fun '(pre, f, post) =>
    match dots_of f, post with
    | Some _, f2 :: _ =>
        let l := last post f2 in
        [match dots_of l with
         | Some _ => (DK_FormalExtraEllipsis, nrange f, [], [take_out pre f post])
         | None =>
             (DK_FormalMisplacedEllipsis, nrange f, [],
              [take_out pre f post ++
               [insert (nr l) (match comma_of f with Some _ => written src f | None => b ", " ++ written src f end)]])
         end]
    | _, _ => []
    end) (places pre fv)).
Proof.
  induction fv as [|f fv IH]; intros pre first d s u s' H Fw Fi; [injection H as _ <-; apply tells_nil|].
  destruct fv as [|f2 fv]; [simpl in H; injection H as _ <-; simpl; destruct (dots_of f); apply tells_nil|].
  change (last (f :: f2 :: fv) d) with (last (f2 :: fv) d) in H.
  rewrite ellipsis_eq in H. inversion Fw as [|? ? Ff Fw']; subst.
  apply bind_ok in H as (v & s1 & E1 & H). cbn [places flat_map]. eapply tells_app; [|eapply IH; [exact H|exact Fw'|]].
  2: { split; [discriminate|]. destruct pre; discriminate. }
  change (f_ell f) with (dots_of f) in E1. destruct (dots_of f); [|injection E1 as _ <-; apply tells_nil].
  cbn [is_some] in E1. rewrite (last_cons _ _ d f2) in E1. cbv zeta.
  change (f_ell (last (f2 :: fv) f2)) with (dots_of (last (f2 :: fv) f2)) in E1.
  destruct (dots_of (last (f2 :: fv) f2)) as [z|]; cbn [is_some] in E1.
  - apply bind_ok in E1 as (es & s2 & E2 & E1). pose proof (removeFormal_edits pre _ _ _ _ _ _ E2 Fi) as ->. apply removeFormal_same in E2 as ->.
    now apply emit_tells in E1.
  - apply bind_ok in E1 as (es & s2 & E2 & E1). pose proof (removeFormal_edits pre _ _ _ _ _ _ E2 Fi) as ->. apply removeFormal_same in E2 as ->.
    apply bind_ok in E1 as (tx & s2 & E2 & E1). apply nsrc_written in E2 as [-> ->]; [|exact Ff].
    apply bind_ok in E1 as (ed & s2 & E2 & E1). apply lift_edit in E2 as [-> ->].
    apply emit_tells in E1. change (f_comma f) with (comma_of f) in E1. destruct (comma_of f); exact E1.
Qed.
Lemma empty_tells fv : forall pre s u s', checkFormalEmpty fv s = Ok (u, s') ->
  tells s s' (flat_map (fun '(pre, f, post) =>
    match comma_of f, ident_of f, dots_of f, post with
    | Some _, None, None, _ :: _ => [(DK_EmptyFormal, nrange f, [], [[remove f]])]
    | _, _, _, _ => []
    end) (places pre fv)).
Proof.
  induction fv as [|f fv IH]; intros pre s u s' H; [injection H as _ <-; apply tells_nil|].
  destruct fv as [|f2 fv]; [simpl in H; injection H as _ <-; simpl; destruct (comma_of f), (ident_of f), (dots_of f); apply tells_nil|].
  rewrite empty_eq in H.
  apply bind_ok in H as (v & s1 & E1 & H). cbn [places flat_map]. eapply tells_app; [|eapply IH; exact H].
  change (f_comma f) with (comma_of f) in E1. change (f_id f) with (ident_of f) in E1. change (f_ell f) with (dots_of f) in E1.
  destruct (comma_of f), (ident_of f), (dots_of f); simpl in E1; try (injection E1 as _ <-; apply tells_nil).
  apply bind_ok in E1 as (es & s2 & E2 & E1). unfold fix1 in E2. apply bind_ok in E2 as (ed & s3 & E2 & E3). apply lift_edit in E2 as [-> ->].
  injection E3 as <- <-. now apply emit_tells in E1.
Qed.

(** the map *)
Lemma dfind_dinsert {A} x (v : A) m y : dfind y (dinsert x v m) = if bytes_eqb y x then Some v else dfind y m.
Proof.
  induction m as [|[z c] m IH]; simpl; [reflexivity|]. destruct (bytes_eqb x z) eqn:E.
  - apply beq_eq in E as ->. simpl. now destruct (bytes_eqb y z).
  - destruct (bytes_ltb x z); simpl; [reflexivity|]. rewrite IH. destruct (bytes_eqb y z) eqn:E2; [|reflexivity].
    apply beq_eq in E2 as ->. apply beq_neq in E. destruct (bytes_eqb z x) eqn:E3; [|reflexivity]. apply beq_eq in E3. congruence.
Qed.
Lemma dinsert_in {A} x (v : A) m y : In y (map fst (dinsert x v m)) <-> y = x \/ In y (map fst m).
Proof.
  induction m as [|[z c] m IH]; simpl; [intuition|]. destruct (bytes_eqb x z) eqn:E.
  - apply beq_eq in E as ->. simpl. intuition.
  - destruct (bytes_ltb x z); simpl; [intuition|]. rewrite IH. intuition.
Qed.
Lemma dinsert_nodup {A} x (v : A) m : NoDup (map fst m) -> ~ In x (map fst m) -> NoDup (map fst (dinsert x v m)).
Proof.
  induction m as [|[z c] m IH]; simpl; intros N Nx; [constructor; [auto|constructor]|]. inversion N; subst. destruct (bytes_eqb x z) eqn:E.
  - apply beq_eq in E as ->. now constructor.
  - destruct (bytes_ltb x z); simpl.
    + constructor; auto.
    + constructor; auto. rewrite dinsert_in. intros [Z|Z]; [apply beq_neq in E; congruence|auto].
Qed.
Lemma dfind_none {A} x (m : list (bytes * A)) : dfind x m = None -> ~ In x (map fst m).
Proof.
  induction m as [|[z c] m IH]; simpl; [auto|]. destruct (bytes_eqb x z) eqn:E; [discriminate|]. intros H [Z|Z]; [|now apply IH].
  apply beq_neq in E. congruence.
Qed.
Lemma dfind_in {A} x (m : list (bytes * A)) v : NoDup (map fst m) -> (dfind x m = Some v <-> In (x, v) m).
Proof.
  induction m as [|[z c] m IH]; simpl; intros N; [split; [discriminate|contradiction]|]. inversion N; subst. destruct (bytes_eqb x z) eqn:E.
  - apply beq_eq in E as ->. split; [intros Z; injection Z as ->; auto|]. intros [Z|Z]; [now injection Z as ->|].
    exfalso. match goal with H : ~ In _ _ |- _ => apply H end. change z with (fst (z, v)). now apply in_map.
  - rewrite IH by auto. split; [auto|]. intros [Z|Z]; [|auto]. injection Z as -> _. apply beq_neq in E. congruence.
Qed.
Lemma find_app {A} (f : A -> bool) l l' : find f (l ++ l') = match find f l with Some x => Some x | None => find f l' end.
Proof. induction l as [|a l IH]; simpl; [reflexivity|]. now destruct (f a). Qed.

Lemma dedup_tells fv : forall pre d s d' s', dedupFormal d fv s = Ok (d', s') ->
  NoDup (map fst d) -> (forall x, dfind x d = find (named x) pre) ->
  tells s s' (flat_map (fun '(pre, f, post) =>
    match ident_of f with
    | Some i =>
        match find (named (text_of i)) pre with
        | Some g => [(DK_DuplicatedFormal, nrange i, match ident_of g with Some j => [nrange j] | None => [] end, [])]
        | None => []
        end
    | None => []
    end) (places pre fv)) /\ NoDup (map fst d') /\ forall x, dfind x d' = find (named x) (pre ++ fv).
Proof.
  induction fv as [|f fv IH]; intros pre d s d' s' H N I; simpl in H.
  - injection H as <- <-. rewrite app_nil_r. split; [apply tells_nil|auto].
  - change (f_id f) with (ident_of f) in H. cbn [places flat_map].
    replace (pre ++ f :: fv) with ((pre ++ [f]) ++ fv) by now rewrite <- app_assoc.
    destruct (ident_of f) as [i|] eqn:Ei.
    + change (ident_name i) with (text_of i) in H. rewrite I in H. destruct (find (named (text_of i)) pre) as [g|] eqn:Fd.
      * change (f_id g) with (ident_of g) in H. destruct (ident_of g) as [j|]; [|discriminate].
        apply bind_ok in H as (u & s1 & E1 & H). apply emit_tells in E1.
        destruct (IH (pre ++ [f]) _ _ _ _ H N) as (T & R).
        { intros x. rewrite I, find_app. destruct (find (named x) pre) eqn:Fx; [reflexivity|]. simpl. unfold named at 1. rewrite Ei.
          destruct (bytes_eqb x (text_of i)) eqn:Ex; [|reflexivity]. apply beq_eq in Ex as ->. congruence. }
        split; [|exact R]. exact (tells_app _ _ _ _ _ E1 T).
      * assert (Fd' : dfind (text_of i) d = None) by now rewrite I.
        destruct (IH (pre ++ [f]) _ _ _ _ H) as (T & R); [apply dinsert_nodup; [auto|now apply dfind_none]| |split; [exact T|exact R]].
        intros x. rewrite dfind_dinsert, I, find_app. simpl. unfold named at 3. rewrite Ei.
        destruct (bytes_eqb x (text_of i)) eqn:Ex; [apply beq_eq in Ex as ->; now rewrite Fd|]. now destruct (find (named x) pre).
    + destruct (IH (pre ++ [f]) _ _ _ _ H N) as (T & R); [|split; [exact T|exact R]].
      intros x. rewrite I, find_app. simpl. unfold named at 3. rewrite Ei. now destruct (find (named x) pre).
Qed.

Lemma find_first x fv f : find (named x) fv = Some f <-> first_named fv x f.
Proof.
  split.
  - induction fv as [|g fv IH]; simpl; [discriminate|]. destruct (named x g) eqn:E.
    + intros H. injection H as <-. exists [], fv. split; auto. split; [auto|]. intros ? [].
    + intros H. destruct (IH H) as (pre & post & -> & H1 & H2). exists (g :: pre), post. split; auto. split; [auto|]. intros h [<-|Ih]; auto.
  - intros (pre & post & -> & H1 & H2). induction pre as [|g pre IH]; simpl; [now rewrite H1|]. rewrite (H2 g) by now left. apply IH. intros h Ih. apply H2. now right.
Qed.

Lemma onFormals_ok src r fv s n s' : onFormals src r fv s = Ok (n, s') ->
  (forward fv -> tells s s' (no_comma fv ++ early_ellipsis src fv ++ empty_formal fv ++ repeated_name fv)) /\
  NoDup (map fst (names_of n)) /\
  (forall x i, In (x, i) (names_of n) <-> exists f, first_named fv x f /\ i = nid f) /\
  exists i, n = NFormals i r fv (names_of n).
Proof.
  unfold onFormals. intros H. apply bind_ok in H as (u & s1 & E1 & H). apply bind_ok in H as (u2 & s2 & E2 & H).
  apply bind_ok in H as (u3 & s3 & E3 & H). apply bind_ok in H as (d & s4 & E4 & H). apply bind_ok in H as (i & s5 & E5 & H).
  injection H as <- <-. apply (sep_tells fv []) in E1; [|split; auto].
  assert (E2' : forward fv -> tells s1 s2 (early_ellipsis src fv)).
  { intros Fw. unfold checkFormalEllipsis in E2. destruct fv as [|f0 fv]; [injection E2 as _ <-; apply tells_nil|]. apply (ellipsis_tells _ _ []) in E2; auto. split; auto. }
  apply (empty_tells fv []) in E3. destruct (dedup_tells fv [] _ _ _ _ E4) as (T & N & I); [constructor|auto|].
  split; [|split; [|split; [|eauto]]].
  - intros Fw. eapply tells_app; [exact E1|]. eapply tells_app; [exact (E2' Fw)|]. eapply tells_app; [exact E3|].
    injection E5 as _ <-. destruct T as (news & S4 & E). exists news. split; [exact S4|exact E].
  - simpl. rewrite map_map. exact N.
  - intros x j. simpl. rewrite in_map_iff. split.
    + intros ([y f] & Z & If). injection Z as <- <-. apply dfind_in in If; auto. rewrite I in If. exists f. split; auto. now apply find_first.
    + intros (f & Ff & ->). exists (x, f). split; auto. apply dfind_in; auto. rewrite I. now apply find_first.
Qed.

Lemma dedup_at_ok src r fv s n s' x : onFormals src r fv s = Ok (n, s') -> NoDup (map nid fv) ->
  forall f, dedup_at n x = Some f <-> first_named fv x f.
Proof.
  intros H U f. destruct (onFormals_ok _ _ _ _ _ _ H) as (_ & N & M & i & ->). simpl in *. set (d := names_of n) in *.
  assert (Fi : forall l g, NoDup (map nid l) -> In g l -> find (fun m => Nat.eqb (nid m) (nid g)) l = Some g).
  { intros l g. induction l as [|h l IH]; simpl; [contradiction|]. intros Ul Ig. inversion Ul; subst. destruct (Nat.eqb (nid h) (nid g)) eqn:E.
    - destruct Ig as [->|Ig]; [reflexivity|]. apply Nat.eqb_eq in E. exfalso. match goal with Q : ~ In _ _ |- _ => apply Q end. rewrite E. now apply in_map.
    - destruct Ig as [->|Ig]; [now rewrite Nat.eqb_refl in E|auto]. }
  assert (In_first : forall g, first_named fv x g -> In g fv). { intros g (p & q & -> & _). apply in_app_iff. simpl. auto. }
  split.
  - destruct (dfind x d) as [j|] eqn:Fd; [|discriminate]. apply dfind_in in Fd; auto. apply M in Fd as (g & Fg & ->).
    rewrite Fi by auto. intros Z. now injection Z as <-.
  - intros Ff. assert (dfind x d = Some (nid f)) as -> by (apply dfind_in; auto; apply M; eauto). now apply Fi; auto.
Qed.
Lemma onLambdaArg_ok src r fv s n s' r2 i s1 a s2 : onFormals src r fv s = Ok (n, s') -> NoDup (map nid fv) ->
  onLambdaArg r2 (Some i) (Some n) s1 = Ok (a, s2) ->
  tells s1 s2 (match find (named (text_of i)) fv with Some f => [(DK_DuplicatedFormalToArg, nrange i, [nrange f], [])] | None => [] end).
Proof.
  intros H U E. pose proof (fun f => dedup_at_ok _ _ _ _ _ _ (text_of i) H U f) as D. unfold onLambdaArg in E.
  change (ident_name i) with (text_of i) in E. apply bind_ok in E as (u & s3 & E & E'). apply bind_ok in E' as (j & s4 & E1 & E2).
  assert (Ends : tells s3 s2 []). { injection E2 as _ <-. injection E1 as _ <-. exists []. split; reflexivity. }
  match goal with |- tells _ _ ?l => rewrite <- (app_nil_r l) end. eapply tells_app; [|exact Ends].
  destruct (dedup_at n (text_of i)) as [f|] eqn:Ed.
  - pose proof (proj1 (D f) eq_refl) as Ed'. apply find_first in Ed'. rewrite Ed'. now apply emit_tells in E.
  - injection E as _ <-. destruct (find (named (text_of i)) fv) as [f|] eqn:Ff; [|apply tells_nil].
    apply find_first, D in Ff. discriminate.
Qed.
