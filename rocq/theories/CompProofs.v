From Verif Require Import Base Diag LexModel LexSpec LexProofs AstModel PSupModel SemaModel ParseModel ParseSpec ParseInv ParseTree ParseProofs
  NavModel NavSpec NavProofs VlaModel VlaSpec VlaPost VlaThms TextModel ConnModel UriModel EvalModel EvalSpec EvalProofs CompModel CompSpec.

(** ** C40 *)
Lemma so_far prefix x : typed_so_far prefix x <-> starts_with prefix x = true.
Proof. unfold typed_so_far. symmetry. apply starts_with_spec. Qed.

Lemma addItem_len x l : List.length l <= 30 -> List.length (fst (addItem x l)) <= 30.
Proof.
  intro H. unfold addItem, MaxCompletionSize. destruct (Nat.leb_spec 30 (List.length l)); cbn [fst]; [lia|].
  rewrite app_length. simpl. lia.
Qed.
Lemma addItems_spec xs : forall l, List.length l <= 30 ->
  List.length (fst (addItems xs l)) <= 30 /\ incl l (fst (addItems xs l)) /\
  (snd (addItems xs l) = false -> fst (addItems xs l) = l ++ xs) /\ incl (fst (addItems xs l)) (l ++ xs).
Proof.
  induction xs as [|x xs IH]; intros l H; cbn [addItems].
  - cbn [fst snd]. rewrite app_nil_r. repeat split; auto using incl_refl.
  - pose proof (addItem_len x l H) as L. unfold addItem in *. destruct (Nat.leb MaxCompletionSize (List.length l)); cbn [fst] in *.
    + cbn [fst snd]. repeat split; auto using incl_refl; [discriminate|]. now apply incl_appl, incl_refl.
    + destruct (IH (l ++ [x]) L) as (A & B & C & D). split; [exact A|]. split; [|split].
      * intros y Hy. apply B. apply in_or_app. now left.
      * intro E. rewrite C by exact E. now rewrite <- app_assoc.
      * intros y Hy. apply D in Hy. now rewrite <- app_assoc in Hy.
Qed.

(** [adds f xs]: the step [f] adds the labels [xs], or throws *)
Definition adds (f : list bytes -> items) (xs : list bytes) : Prop :=
  forall l, List.length l <= 30 ->
    List.length (fst (f l)) <= 30 /\ incl l (fst (f l)) /\ (snd (f l) = false -> fst (f l) = l ++ xs) /\ incl (fst (f l)) (l ++ xs).
Lemma adds_items xs : adds (addItems xs) xs.
Proof. intros l H. now apply addItems_spec. Qed.
Lemma adds_none : adds (fun l => (l, false)) [].
Proof. intros l H. cbn [fst snd]. rewrite app_nil_r. repeat split; auto using incl_refl. Qed.
Lemma adds_then f xs g ys : adds f xs -> adds g ys -> adds (fun l => andThen (f l) g) (xs ++ ys).
Proof.
  intros F G l H. destruct (F l H) as (A & B & C & D). destruct (f l) as [l1 t1]. cbn [fst snd] in *.
  destruct t1; cbn [andThen fst snd].
  - repeat split; auto; [discriminate|]. intros y Hy. apply D in Hy. rewrite app_assoc. apply in_or_app. now left.
  - specialize (C eq_refl). subst l1. destruct (G (l ++ xs) A) as (A2 & B2 & C2 & D2). rewrite <- app_assoc in *.
    repeat split; auto. intros y Hy. apply B2. rewrite in_app_iff in *. tauto.
Qed.
Lemma adds_ext f g xs : (forall l, f l = g l) -> adds f xs -> adds g xs.
Proof. intros E F l H. rewrite <- E. now apply F. Qed.

Definition frame_names (prefix : bytes) (f : VlaModel.frame) : list bytes :=
  filter (fun x => negb (starts_with (b "__") x) && starts_with prefix x) (List.map fst (fr_defs f)).
Fixpoint env_names (prefix : bytes) (e : env) : list bytes :=
  match e with [] => [] | f :: e' => env_names prefix e' ++ frame_names prefix f end.
Lemma adds_collect prefix e : adds (collectDef e prefix) (env_names prefix e).
Proof.
  induction e as [|f e IH]; [apply adds_none|].
  apply (adds_ext (fun l => andThen (collectDef e prefix l) (addItems (frame_names prefix f)))); [reflexivity|].
  cbn [env_names]. apply adds_then; [exact IH|apply adds_items].
Qed.

Definition package_names (scope : option (list (bytes * nval))) (prefix : bytes) : list bytes :=
  filter (starts_with prefix) match scope with Some attrs => completeNames attrs prefix 0 | None => [] end.
Definition option_labels (scope : option (list optionField)) (prefix : bytes) : list bytes :=
  flat_map fieldLabels match scope with Some fs => optionFields fs prefix 0 | None => [] end.
Lemma adds_clients clients prefix :
  adds (completeAttrName clients prefix) (flat_map (fun c => option_labels c prefix) clients).
Proof.
  induction clients as [|c clients IH]; [apply adds_none|].
  apply (adds_ext (fun l => andThen (completeOptions c prefix l) (completeAttrName clients prefix))); [reflexivity|].
  cbn [flat_map]. apply adds_then; [|exact IH]. apply (adds_items (option_labels c prefix)).
Qed.

Definition all_labels (r : completion_request) : list bytes :=
  match r with
  | AtVariable e name sel =>
      match e with Some e => env_names name e | None => [] end ++
      match sel with Some (scope, prefix) => package_names scope prefix | None => [] end
  | AtSelect scope prefix => package_names scope prefix
  | AtAttrs clients prefix => flat_map (fun c => option_labels c prefix) clients
  end.
Lemma adds_request r :
  exists f, adds f (all_labels r) /\ onCompletion r = CompletionList (fst (f [])) (snd (f [])).
Proof.
  assert (E : forall f : list bytes -> items, (let '(l, thrown) := f [] in CompletionList l thrown) = CompletionList (fst (f [])) (snd (f []))).
  { intro f. now destruct (f []). }
  destruct r as [e name sel|scope prefix|clients prefix]; cbn [all_labels].
  - exists (completeVarName e name sel). split; [|apply (E (completeVarName e name sel))].
    apply (adds_ext (fun l => andThen ((fun l => match e with Some e => collectDef e name l | None => (l, false) end) l)
      (fun l => match sel with Some (scope, prefix) => completePackages scope prefix l | None => (l, false) end))); [reflexivity|].
    apply adds_then.
    + destruct e; [apply adds_collect|apply adds_none].
    + destruct sel as [[scope prefix]|]; [apply (adds_items (package_names scope prefix))|apply adds_none].
  - exists (completePackages scope prefix). split; [apply (adds_items (package_names scope prefix))|apply (E (completePackages scope prefix))].
  - exists (completeAttrName clients prefix). split; [apply adds_clients|apply (E (completeAttrName clients prefix))].
Qed.

Lemma bounded r : List.length (cl_items (onCompletion r)) <= 30.
Proof.
  destruct (adds_request r) as (f & A & ->). cbn [cl_items]. destruct (A [] ltac:(simpl; lia)) as (H & _). exact H.
Qed.
Lemma complete_or_flagged r x : In x (all_labels r) -> In x (cl_items (onCompletion r)) \/ cl_isIncomplete (onCompletion r) = true.
Proof.
  destruct (adds_request r) as (f & A & ->). cbn [cl_items cl_isIncomplete]. intro H.
  destruct (A [] ltac:(simpl; lia)) as (_ & _ & C & _). destruct (snd (f [])); [now right|]. left. now rewrite C.
Qed.
Lemma only_candidates r x : In x (cl_items (onCompletion r)) -> In x (all_labels r).
Proof.
  destruct (adds_request r) as (f & A & ->). cbn [cl_items]. intro H.
  destruct (A [] ltac:(simpl; lia)) as (_ & _ & _ & D). exact (D x H).
Qed.
(** a list of more than 30 labels is cut *)
Lemma cut_flagged r : 30 < List.length (all_labels r) -> cl_isIncomplete (onCompletion r) = true.
Proof.
  destruct (adds_request r) as (f & A & ->). cbn [cl_isIncomplete]. intro H.
  destruct (A [] ltac:(simpl; lia)) as (L & _ & C & _). destruct (snd (f [])); [reflexivity|].
  rewrite C in L by reflexivity. simpl in L. lia.
Qed.

Lemma env_names_in prefix e x : In x (env_names prefix e) <->
  exists f d, In f e /\ In (x, d) (fr_defs f) /\ typed_so_far prefix x /\ ~ typed_so_far (b "__") x.
Proof.
  induction e as [|f e IH]; cbn [env_names].
  - split; [intros []|intros (f & _ & [] & _)].
  - rewrite in_app_iff, IH. unfold frame_names. rewrite filter_In, in_map_iff. split.
    + intros [(g & d & H1 & H2)|[([y d] & <- & H1) H2]].
      * exists g, d. split; [now right|exact H2].
      * cbn [fst] in H2. apply andb_prop in H2. destruct H2 as [H2 H3]. exists f, d. split; [now left|]. split; [exact H1|].
        rewrite !so_far. split; [exact H3|]. intro H4. cbn [fst] in H4. rewrite H4 in H2. discriminate.
    + intros (g & d & [<-|H1] & H2 & H3 & H4).
      * right. split; [exists (x, d); auto|]. apply so_far in H3. rewrite H3, andb_true_r.
        rewrite so_far in H4. destruct (starts_with (b "__") x); [now elim H4|reflexivity].
      * left. exists g, d. auto.
Qed.

(** completeNames: all the matching names, or more than 30 of them *)
Lemma completeNames_spec attrs prefix : forall num,
  (forall x, In x (completeNames attrs prefix num) -> starts_with prefix x = true /\ exists v, In (x, v) attrs) /\
  ((forall x v, In (x, v) attrs -> starts_with prefix x = true -> In x (completeNames attrs prefix num)) \/
   (num <= 30 -> 30 < num + List.length (completeNames attrs prefix num))).
Proof.
  induction attrs as [|[y w] attrs IH]; intro num; cbn [completeNames].
  - split; [intros x []|left; intros x v []].
  - destruct (starts_with prefix y) eqn:E.
    + destruct (Nat.ltb_spec MaxItems (S num)) as [L|L]; unfold MaxItems in L.
      * split; [intros x [<-|[]]; split; eauto; exists w; now left|]. right. intros _. simpl. lia.
      * destruct (IH (S num)) as [A B]. split.
        -- intros x [<-|H]; [split; [exact E|exists w; now left]|]. destruct (A x H) as [A1 [v A2]]. split; [exact A1|exists v; now right].
        -- destruct B as [B|B]; [left|right].
           ++ intros x v [H|H] S1; [inversion H; now left|right; eauto].
           ++ intros _. simpl. specialize (B ltac:(lia)). lia.
    + destruct (IH num) as [A B]. split.
      * intros x H. destruct (A x H) as [A1 [v A2]]. split; [exact A1|exists v; now right].
      * destruct B as [B|B]; [left|right; exact B]. intros x v [H|H] S1; [inversion H; subst; congruence|eauto].
Qed.
Lemma package_names_spec attrs prefix :
  (forall x v, In (x, v) attrs -> starts_with prefix x = true -> In x (package_names (Some attrs) prefix)) \/
  30 < List.length (package_names (Some attrs) prefix).
Proof.
  unfold package_names. destruct (completeNames_spec attrs prefix 0) as [A B].
  assert (F : filter (starts_with prefix) (completeNames attrs prefix 0) = completeNames attrs prefix 0).
  { clear B. induction (completeNames attrs prefix 0) as [|x l IH]; [reflexivity|]. cbn [filter].
    destruct (A x (or_introl eq_refl)) as [-> _]. f_equal. apply IH. intros y Hy. apply A. now right. }
  rewrite F. destruct B as [B|B]; [left; exact B|right; specialize (B ltac:(lia)); lia].
Qed.

Lemma optionFields_spec fields prefix : forall num,
  num + List.length (filter (fun f => starts_with prefix (of_Name f)) fields) <= 30 ->
  optionFields fields prefix num = filter (fun f => starts_with prefix (of_Name f)) fields.
Proof.
  induction fields as [|f fields IH]; intros num H; cbn [optionFields filter]; [reflexivity|]. cbn [filter] in H.
  destruct (starts_with prefix (of_Name f)) eqn:E; [|apply IH; exact H].
  cbn [List.length] in H. destruct (Nat.leb_spec MaxItems (S num)) as [L|L]; unfold MaxItems in L.
  - destruct (filter _ fields) as [|g gs]; [reflexivity|]. simpl in H. lia.
  - rewrite IH; [reflexivity|lia].
Qed.
Lemma optionFields_incl fields prefix : forall num, incl (optionFields fields prefix num) (filter (fun f => starts_with prefix (of_Name f)) fields).
Proof.
  induction fields as [|f fields IH]; intros num; cbn [optionFields filter]; [apply incl_refl|].
  destruct (starts_with prefix (of_Name f)) eqn:E; [|apply IH].
  destruct (Nat.leb MaxItems (S num)); [intros x [<-|[]]; now left|].
  intros x [<-|H]; [now left|right; exact (IH _ x H)].
Qed.

Definition labels_of (x l : bytes) : Prop := l = x \/ l = x ++ b " (example)" \/ l = x ++ b " (default)".
Lemma fieldLabels_spec f :
  (exists l, In l (fieldLabels f)) /\ forall l, In l (fieldLabels f) -> labels_of (of_Name f) l.
Proof.
  unfold fieldLabels, labels_of. destruct (of_Description f) as [d|]; [|split; [eexists; now left|intros l [<-|[]]; auto]].
  set (has1 := match od_Example d with Some _ => true | None => false end).
  set (has2 := match od_Default d with Some x => _ | None => false end).
  change (b " (" ++ b "example" ++ b ")") with (b " (example)").
  change (b " (" ++ b "default" ++ b ")") with (b " (default)").
  destruct has1, has2; cbn [andb app].
  - split; [eexists; now left|]. intros l [<-|[<-|[]]]; auto.
  - split; [eexists; now left|]. intros l [<-|[]]; auto.
  - split; [eexists; now left|]. intros l [<-|[]]; auto.
  - split; [eexists; now left|]. intros l [<-|[]]; auto.
Qed.

Lemma flagged r x : may_complete r x ->
  (forall clients prefix fields, r = AtAttrs clients prefix -> In (Some fields) clients -> matching prefix fields <= 30) ->
  offered (onCompletion r) x \/ cl_isIncomplete (onCompletion r) = true.
Proof.
  intros H Hm.
  assert (K : forall l, In l (all_labels r) -> labels_of x l -> offered (onCompletion r) x \/ cl_isIncomplete (onCompletion r) = true).
  { intros l Hl Hx. apply complete_or_flagged in Hl. destruct Hl as [Hl|Hl]; [left|now right].
    unfold offered. destruct Hx as [E|[E|E]]; subst l; auto. }
  assert (P : forall attrs v prefix scope, scope = Some attrs -> In (x, v) attrs -> typed_so_far prefix x ->
    incl (package_names scope prefix) (all_labels r) -> List.length (package_names scope prefix) <= List.length (all_labels r) ->
    offered (onCompletion r) x \/ cl_isIncomplete (onCompletion r) = true).
  { intros attrs v prefix scope -> Hin Hp Hi Hl. apply so_far in Hp. destruct (package_names_spec attrs prefix) as [A|A].
    - apply (K x); [apply Hi; eapply A; eauto|now left].
    - right. apply cut_flagged. lia. }
  destruct r as [e name sel|scope prefix|clients prefix]; cbn [may_complete] in H.
  - destruct H as [(e' & f & d & -> & Hf & Hd & Hp & Hu)|(attrs & v & prefix & -> & Hin & Hp)].
    + apply (K x); [|now left]. cbn [all_labels]. apply in_or_app. left. apply env_names_in. eauto 8.
    + apply (P attrs v prefix (Some attrs)); auto; cbn [all_labels].
      * apply incl_appr, incl_refl.
      * rewrite app_length. lia.
  - destruct H as (attrs & v & -> & Hin & Hp). apply (P attrs v prefix (Some attrs)); auto; cbn [all_labels]; apply incl_refl.
  - destruct H as (fields & f & Hc & Hf & <- & Hp).
    destruct (fieldLabels_spec f) as [[l Hl] Ha]. apply (K l); [|auto].
    cbn [all_labels]. apply in_flat_map. exists (Some fields). split; [exact Hc|]. unfold option_labels.
    rewrite optionFields_spec by (simpl; apply (Hm clients prefix fields eq_refl Hc)).
    apply in_flat_map. exists f. split; [|exact Hl]. apply filter_In. split; [exact Hf|]. now apply so_far.
Qed.

Lemma proposed r x : In x (cl_items (onCompletion r)) -> exists y, may_complete r y /\ labels_of y x.
Proof.
  intro H. apply only_candidates in H.
  assert (P : forall scope prefix, In x (package_names scope prefix) -> exists attrs v, scope = Some attrs /\ In (x, v) attrs /\ typed_so_far prefix x).
  { intros scope prefix Hp. unfold package_names in Hp. apply filter_In in Hp. destruct Hp as [Hp Hs].
    destruct scope as [attrs|]; [|destruct Hp]. destruct (completeNames_spec attrs prefix 0) as [A _]. destruct (A x Hp) as [_ [v Hv]].
    exists attrs, v. rewrite so_far. auto. }
  destruct r as [e name sel|scope prefix|clients prefix]; cbn [all_labels may_complete] in *.
  - exists x. split; [|now left]. apply in_app_or in H. destruct H as [H|H].
    + left. destruct e as [e|]; [|destruct H]. apply env_names_in in H. destruct H as (f & d & H). exists e, f, d. tauto.
    + right. destruct sel as [[scope prefix]|]; [|destruct H]. destruct (P _ _ H) as (attrs & v & -> & Hv). exists attrs, v, prefix. tauto.
  - exists x. split; [|now left]. destruct (P _ _ H) as (attrs & v & -> & Hv). exists attrs, v. tauto.
  - apply in_flat_map in H. destruct H as (c & Hc & H). unfold option_labels in H. apply in_flat_map in H. destruct H as (f & Hf & H).
    destruct c as [fields|]; [|destruct Hf]. apply optionFields_incl in Hf. apply filter_In in Hf. destruct Hf as [Hf Hs].
    exists (of_Name f). split; [|now apply fieldLabels_spec]. exists fields, f. rewrite so_far. auto.
Qed.

(** ** C41 *)
Lemma rep_names st sc e : rep st sc e -> forall x, (exists l, In l sc /\ declares l x) <-> (exists f d, In f e /\ In (x, d) (fr_defs f)).
Proof.
  assert (F : forall x (l : list (bytes * nat)), bfind x l = None <-> forall d, ~ In (x, d) l).
  { intros x l. induction l as [|[y d] l IH]; cbn [bfind]; [split; [intros _ d []|auto]|].
    destruct (bytes_eqb x y) eqn:E.
    - apply VlaPost.bytes_eqb_eq in E. subst. split; [discriminate|]. intro H. exfalso. apply (H d). now left.
    - rewrite IH. split; [intros H d' [G|G]; [inversion G; subst; rewrite (proj2 (VlaPost.bytes_eqb_eq x x) eq_refl) in E; discriminate|now apply (H d')]|].
      intros H d' G. apply (H d'). now right. }
  intros R x. induction R as [|l f sc e Hl _ IH].
  - split; [intros (l & [] & _)|intros (f & d & [] & _)].
  - assert (D : declares l x <-> exists d, In (x, d) (fr_defs f)).
    { assert (N : bfind x (fr_defs f) = None <-> ~ declares l x).
      { destruct l as [xs|who names|w]; cbn [lrep declares] in *.
        - destruct Hl as (_ & H & _). apply H.
        - destruct Hl as (_ & _ & H & _). apply H.
        - destruct Hl as (-> & _). cbn. tauto. }
      destruct (bfind x (fr_defs f)) as [d|] eqn:B.
      - assert (I : In (x, d) (fr_defs f)).
        { clear - B. induction (fr_defs f) as [|[y d'] t IH]; [discriminate|]. cbn [bfind] in B.
          destruct (bytes_eqb x y) eqn:E; [apply VlaPost.bytes_eqb_eq in E; inversion B; subst; now left|right; auto]. }
        split; [intros _; eauto|]. intros _. destruct l as [xs|who names|w]; cbn [declares] in *.
        + destruct (in_dec (list_eq_dec ascii_dec) x xs); [auto|]. apply N in n. discriminate.
        + destruct (in_dec (list_eq_dec ascii_dec) x (List.map fst names)); [auto|]. apply N in n. discriminate.
        + destruct N as [_ N]. discriminate N. tauto.
      - split; [intro H; exfalso; apply (proj1 N eq_refl), H|]. intros [d Hd]. exfalso. apply (proj1 (F x _) B d Hd). }
    split.
    + intros (l' & [<-|I] & Hd).
      * apply D in Hd. destruct Hd as [d Hd]. exists f, d. split; [now left|exact Hd].
      * destruct IH as [IH _]. destruct IH as (f' & d & I' & Hd'); [eauto|]. exists f', d. split; [now right|exact Hd'].
    + intros (f' & d & [<-|I] & Hd).
      * exists l. split; [now left|]. apply D. eauto.
      * destruct IH as [_ IH]. destruct IH as (l' & I' & Hd'); [eauto|]. exists l'. split; [now right|exact Hd'].
Qed.

Lemma env_at primops root s sc v : vla primops root = Ok s -> coherent primops root -> visit (prelude primops) root sc v ->
  exists e, envOf s v = Some e /\ rep s sc e.
Proof.
  intros H C V. pose proof (vla_start _ _ _ H) as (s1 & e1 & St). destruct St as (_ & _ & _ & E & _ & _ & _ & _ & P & _).
  destruct (po_envnew _ _ _ _ _ _ P sc v V) as [e He]. exists e. split; [exact He|].
  destruct (po_env _ _ _ _ _ _ P _ _ He) as [Q|(sc' & m & Vm & Im & R)]; [rewrite E in Q; discriminate|].
  destruct (C sc' m sc v Vm V Im) as [-> _]. exact R.
Qed.
Lemma upEnv_at s m v e : envOf s v = Some e -> upEnv s m v = Ok (Some e).
Proof. intro H. unfold upEnv. cbn [upEnvLoop]. now rewrite H. Qed.
(** a list is cut only when it is full *)
Definition full_cut (f : list bytes -> items) : Prop := forall l, List.length l <= 30 -> snd (f l) = true -> List.length (fst (f l)) = 30.
Lemma cut_items xs : full_cut (addItems xs).
Proof.
  induction xs as [|x xs IH]; intros l H E; cbn [addItems] in *; [discriminate|]. unfold addItem, MaxCompletionSize in *.
  destruct (Nat.leb_spec 30 (List.length l)); cbn [fst snd] in *; [lia|]. apply IH; [rewrite app_length; simpl; lia|exact E].
Qed.
Lemma collect_cut prefix e : full_cut (collectDef e prefix).
Proof.
  induction e as [|f e IH]; intros l H E; [discriminate|].
  change (collectDef (f :: e) prefix l) with (andThen (collectDef e prefix l) (addItems (frame_names prefix f))) in *.
  pose proof (IH l H) as K. destruct (adds_collect prefix e l H) as (L & _). destruct (collectDef e prefix l) as [l1 [|]]; cbn [andThen fst snd] in *; [auto|].
  now apply cut_items.
Qed.

(** the environment found is that of the nearest enclosing node that has one *)
Lemma upEnvLoop_ok root m s : identified root -> parents root = Ok m ->
  forall f n seen, node_of root n -> NoDup (map nid seen) -> (forall x, In x seen -> node_of root x /\ nsize x < nsize n) ->
  S (List.length m) <= f + List.length seen ->
  exists l, chain root n l /\ forall pre p post e, l = pre ++ p :: post -> (forall q, In q pre -> envOf s q = None) ->
    envOf s p = Some e -> upEnvLoop f s m n = Ok (Some e).
Proof.
  intros Id E. induction f as [|f IH]; intros n seen N Nd Hs L.
  - exfalso. assert (I : incl (map nid seen) (map fst m)).
    { intros k I. apply in_map_iff in I as (x & <- & I). destruct (Hs x I) as [X _].
      destruct (parent_some _ _ _ E X) as [p P]. eapply pget_key. exact P. }
    apply (NoDup_incl_length Nd) in I. rewrite !map_length in I. simpl in L. lia.
  - destruct (parent_some _ _ _ E N) as [p P].
    destruct (parent_ok _ _ _ _ Id E N P) as [[-> ->]|(Ne & Np & Ch)].
    + exists [root]. split; [constructor|]. intros [|a pre] q post e Q _ Hq; [|destruct pre; discriminate].
      injection Q as <- _. cbn [upEnvLoop]. now rewrite Hq.
    + pose proof (proj1 (present_in _ _) Ch) as Sz. apply child_size in Sz.
      destruct (IH p (n :: seen)) as (l & C & R).
      * exact Np.
      * simpl. constructor; auto. intros I. apply in_map_iff in I as (x & Ex & I). destruct (Hs x I) as [X1 X2].
        rewrite (Id x n X1 N Ex) in X2. lia.
      * intros x [<-|I]; [auto|]. destruct (Hs x I). split; [auto|lia].
      * simpl. lia.
      * exists (n :: l). split; [econstructor; eauto|]. intros [|a pre] q post e Q F Hq; injection Q as <- Q.
        -- cbn [upEnvLoop]. now rewrite Hq.
        -- cbn [upEnvLoop]. rewrite (F n (or_introl eq_refl)), P. unfold pis_root. rewrite P.
           destruct (Nat.eqb (nid p) (nid n)) eqn:K; [apply Nat.eqb_eq in K; rewrite (Id p n Np N K) in Sz; lia|].
           apply (R pre q post e Q); auto. intros x I. apply F. now right.
Qed.
Lemma upEnv_nearest primops root s m n : vla primops root = Ok s -> coherent primops root -> identified root ->
  parents root = Ok m -> node_of root n ->
  exists l, chain root n l /\ forall pre p post sc, l = pre ++ p :: post ->
    (forall q sc' q', In q pre -> visit (prelude primops) root sc' q' -> nid q' <> nid q) ->
    visit (prelude primops) root sc p -> exists e, upEnv s m n = Ok (Some e) /\ rep s sc e.
Proof.
  intros H C Id P N. destruct (upEnvLoop_ok root m s Id P (S (List.length m)) n []) as (l & Ch & L); simpl; auto; [constructor|intros x []|lia|].
  exists l. split; [exact Ch|]. intros pre p post sc Q F V. destruct (env_at _ _ _ _ _ H C V) as (e & He & R). exists e. split; [|exact R].
  apply (L pre p post e Q); auto. intros q I. destruct (envOf s q) as [e'|] eqn:Eq; [|reflexivity]. exfalso.
  pose proof (vla_start _ _ _ H) as (s1 & e1 & St). destruct St as (_ & _ & _ & E0 & _ & _ & _ & _ & Po & _).
  destruct (po_env _ _ _ _ _ _ Po _ _ Eq) as [Q'|(sc' & q' & Vm & Im & _)]; [rewrite E0 in Q'; discriminate|].
  exact (F q sc' q' I Vm Im).
Qed.
