(** Lemmas for C91 and C92. *)
From Verif Require Import Base Diag LexModel AstModel SemaModel ParseModel VlaModel TextModel UriModel ConnModel EvalModel EvalSpec EvalProofs MsgSpec MsgProofs ToolModel ToolSpec.
From Coq Require Import Lia.

(** ** C91 *)
Definition writes {A} (f : A -> res json) (shows : json -> A -> Prop) (a : A) : Prop := exists j, f a = Ok j /\ shows j a.
Lemma writes_all {A} (f : A -> res json) shows l : all_of (writes f shows) l -> writes (jvector f) (says_all shows) l.
Proof.
  intro H. unfold writes, jvector, says_all.
  assert (G : exists js, jelements f l = Ok js /\ Forall2 shows js l).
  { induction l as [|a l IH]; [exists []; split; [reflexivity|constructor]|].
    destruct (H a (or_introl eq_refl)) as (j & E & S). destruct IH as (js & Es & Ss); [intros x I; apply H; now right|].
    exists (j :: js). cbn [jelements]. rewrite E. cbn [bind]. rewrite Es. split; [reflexivity|now constructor]. }
  destruct G as (js & E & S). rewrite E. eexists. split; [reflexivity|]. eauto.
Qed.
Lemma writes_text s : is_text s -> writes nstring shows_text s.
Proof. intro H. unfold writes, nstring. rewrite (isUTF8_text s H). eexists. split; reflexivity. Qed.
Lemma has_here {A} o k (shows : json -> A -> Prop) a v : get (b k) o = Some v -> shows v a -> has o k shows a.
Proof. intros G S. exists v. split; [now apply get_field|exact S]. Qed.
Ltac there := eapply has_here; [reflexivity|].
Lemma writes_cursor c : writes cursorToJSON shows_cursor c.
Proof. eexists. split; [reflexivity|]. eexists. split; [reflexivity|]. split; [there; reflexivity|]. split; there; reflexivity. Qed.
Lemma writes_range r : writes crangeToJSON shows_range r.
Proof.
  destruct (writes_cursor (lcur r)) as (j & E & H). destruct (writes_cursor (rcur r)) as (j' & E' & H').
  unfold writes, crangeToJSON, jobject. cbn [jfields]. rewrite E. cbn [bind]. rewrite E'. eexists. split; [reflexivity|].
  eexists. split; [reflexivity|]. split; [there; exact H|there; exact H'].
Qed.
Lemma writes_edit e : is_text (e_text e) -> writes teditToJSON shows_edit e.
Proof.
  intro T. destruct (writes_range (e_range e)) as (j & E & H). destruct (writes_text _ T) as (j' & E' & H').
  unfold writes, teditToJSON, jobject. cbn [jfields]. rewrite E. cbn [bind]. rewrite E'. eexists. split; [reflexivity|].
  eexists. split; [reflexivity|]. split; [there; exact H|there; exact H'].
Qed.
Lemma writes_fix f : text_fix f -> writes fixToJSON shows_fix f.
Proof.
  intros [T Te]. destruct (writes_text _ T) as (j & E & H).
  destruct (writes_all teditToJSON shows_edit (f_edits f)) as (j' & E' & H'); [intros e I; apply writes_edit, Te, I|].
  unfold writes, fixToJSON, jobject. cbn [jfields]. rewrite E'. cbn [bind]. rewrite E. eexists. split; [reflexivity|].
  eexists. split; [reflexivity|]. split; [there; exact H|there; exact H'].
Qed.
Lemma nmessage_text k : is_text (nmessage k) /\ is_text (nsname_of k).
Proof. split; apply isUTF8_inv; destruct k; reflexivity. Qed.
Lemma dmessage_text k : is_text (dmessage k) /\ is_text (sname_of k).
Proof. split; apply isUTF8_inv; destruct k; reflexivity. Qed.
Lemma nkind_shown k : nth_error all_nkinds (nkindNumber k) = Some k.
Proof. now destruct k. Qed.
Lemma dkind_shown k : nth_error all_dkinds (dkindNumber k) = Some k.
Proof. now destruct k. Qed.
Lemma writes_args l : all_of is_text l -> writes (jvector nstring) (says_all shows_text) l.
Proof. intro H. apply writes_all. intros s I. apply writes_text, H, I. Qed.
Lemma writes_tags l : writes (jvector tagToJSON) (says_all (shows_one_of [Faded; Striked])) l.
Proof.
  apply writes_all. intros t _. eexists. split; [reflexivity|]. eexists. split; [reflexivity|]. now destruct t.
Qed.
Lemma writes_note n : all_of is_text (n_args n) -> writes noteToJSON shows_note n.
Proof.
  intro T. destruct (writes_range (n_range n)) as (j1 & E1 & H1). destruct (writes_args _ T) as (j2 & E2 & H2).
  destruct (writes_tags []) as (j3 & E3 & H3). destruct (nmessage_text (n_kind n)) as [Tm Ts].
  destruct (writes_text _ Tm) as (j4 & E4 & H4). destruct (writes_text _ Ts) as (j5 & E5 & H5).
  unfold writes, noteToJSON, partialFields, jobject. cbn [app jfields]. rewrite E2. cbn [bind]. rewrite E3. cbn [bind]. rewrite E1. cbn [bind nnat].
  rewrite E5. cbn [bind]. rewrite E4. eexists. split; [reflexivity|]. eexists. split; [reflexivity|]. repeat split; there; try eassumption.
  eexists. split; [reflexivity|apply nkind_shown].
Qed.
Lemma severity_shown s : nth_error [DS_Fatal; DS_Error; DS_Warning; DS_Info; DS_Hint] (severityNumber s) = Some s.
Proof. now destruct s. Qed.
Lemma writes_diag d : text_diag d -> writes diagToJSON shows_diag d.
Proof.
  intros (Ta & Tn & Tf). destruct (writes_range (d_range d)) as (j1 & E1 & H1). destruct (writes_args _ Ta) as (j2 & E2 & H2).
  destruct (writes_tags (d_tags d)) as (j3 & E3 & H3). destruct (dmessage_text (d_kind d)) as [Tm Ts].
  destruct (writes_text _ Tm) as (j4 & E4 & H4). destruct (writes_text _ Ts) as (j5 & E5 & H5).
  destruct (writes_all noteToJSON shows_note (d_notes d)) as (j6 & E6 & H6); [intros n I; apply writes_note, Tn, I|].
  destruct (writes_all fixToJSON shows_fix (d_fixes d)) as (j7 & E7 & H7); [intros f I; apply writes_fix, Tf, I|].
  unfold writes, diagToJSON, partialFields, jobject. cbn [app jfields]. rewrite E2. cbn [bind]. rewrite E3. cbn [bind]. rewrite E1.
  cbn [bind nnat]. rewrite E4. cbn [bind]. rewrite E5. cbn [bind]. rewrite E6. cbn [bind]. rewrite E7.
  eexists. split; [reflexivity|]. eexists. split; [reflexivity|]. repeat split; there; try eassumption.
  - eexists. split; [reflexivity|apply dkind_shown].
  - eexists. split; [reflexivity|apply severity_shown].
Qed.

(** what is shown determines what was meant *)
Definition clear {A} (shows : json -> A -> Prop) : Prop := forall j a a', shows j a -> shows j a' -> a = a'.
Lemma clear_nat : clear shows_nat.
Proof. intros j n m -> [= E]. lia. Qed.
Lemma clear_text : clear shows_text.
Proof. intros j s t -> [= ->]. reflexivity. Qed.
Lemma clear_all {A} (shows : json -> A -> Prop) : clear shows -> clear (says_all shows).
Proof.
  intros H j l l' (js & -> & F) (js' & E & F'). injection E as <-. revert l' F'. induction F as [|x a js l S F IH]; intros l' F'.
  - now inversion F'.
  - inversion F' as [|? a' ? l2 S' F2]; subst. f_equal; [exact (H _ _ _ S S')|now apply IH].
Qed.
Lemma clear_one_of {A} (all : list A) : clear (shows_one_of all).
Proof. intros j x y (n & S & E) (m & S' & E'). pose proof (clear_nat _ _ _ S S') as ->. rewrite E in E'. now injection E'. Qed.
Lemma clear_has {A} o k (shows : json -> A -> Prop) a a' : clear shows -> has o k shows a -> has o k shows a' -> a = a'.
Proof. intros H (v & F & S) (v' & F' & S'). apply get_field in F, F'. rewrite F in F'. injection F' as <-. eauto. Qed.
Lemma clear_cursor : clear shows_cursor.
Proof.
  intros j [l c o] [l' c' o'] (x & -> & A & B & C) (y & E & A' & B' & C'). injection E as <-. cbn [line col off] in *.
  f_equal; eapply clear_has; eauto using clear_nat.
Qed.
Lemma clear_range : clear shows_range.
Proof.
  intros j [l c] [l' c'] (x & -> & A & B) (y & E & A' & B'). injection E as <-. cbn [lcur rcur] in *.
  f_equal; eapply clear_has; eauto using clear_cursor.
Qed.
Lemma clear_edit : clear shows_edit.
Proof.
  intros j [l c] [l' c'] (x & -> & A & B) (y & E & A' & B'). injection E as <-. cbn [e_range e_text] in *.
  f_equal; eapply clear_has; eauto using clear_range, clear_text.
Qed.
Lemma clear_fix : clear shows_fix.
Proof.
  intros j [l c] [l' c'] (x & -> & A & B) (y & E & A' & B'). injection E as <-. cbn [f_msg f_edits] in *.
  f_equal; eapply clear_has; eauto using clear_text, clear_all, clear_edit.
Qed.
Lemma clear_note : clear shows_note.
Proof.
  intros j [k r l] [k' r' l'] (x & -> & A & B & C & _) (y & E & A' & B' & C' & _). injection E as <-. cbn [n_kind n_range n_args] in *.
  f_equal; eapply clear_has; eauto using clear_range, clear_text, clear_all, (clear_one_of all_nkinds).
Qed.
Lemma clear_diag : clear shows_diag.
Proof.
  intros j [k r l n f t] [k' r' l' n' f' t'] (x & -> & A & B & _ & C & D & _ & _ & F & G) (y & E & A' & B' & _ & C' & D' & _ & _ & F' & G').
  injection E as <-. cbn [d_kind d_range d_args d_notes d_fixes d_tags] in *.
  f_equal; eapply clear_has; eauto using clear_range, clear_text, clear_all, clear_note, clear_fix, (clear_one_of all_dkinds), (clear_one_of [Faded; Striked]).
Qed.

Lemma parseArgs_lookup argv : snd (parseArgs argv) = true <-> In (b "--variable-lookup") argv.
Proof.
  unfold parseArgs. set (f := fun (s : bool * bool) (a : bytes) => _).
  assert (G : forall l s, snd (fold_left f l s) = true <-> snd s = true \/ In (b "--variable-lookup") l).
  { induction l as [|a l IH]; intro s; cbn [fold_left In]; [tauto|]. rewrite IH. unfold f.
    destruct (bytes_eqb a (b "--pretty-print")) eqn:E1.
    - apply beq_eq in E1. cbn [snd]. split; [tauto|]. intros [H|[H|H]]; [tauto| |tauto]. exfalso. rewrite E1 in H. discriminate H.
    - destruct (bytes_eqb a (b "--variable-lookup")) eqn:E2.
      + apply beq_eq in E2. cbn [snd]. tauto.
      + split; [tauto|]. intros [H|[H|H]]; [tauto| |tauto]. rewrite H, beq_refl in E2. discriminate E2. }
  rewrite G. cbn [snd]. intuition discriminate.
Qed.

Lemma tidy_prints primops argv src ast ds more :
  parse src = Ok (ast, ds) ->
  match ast with
  | Some root => exists s, vla primops root = Ok s /\
      ((In (b "--variable-lookup") argv /\ more = v_diags s) \/ (~ In (b "--variable-lookup") argv /\ more = []))
  | None => more = []
  end ->
  all_of text_diag (ds ++ more) ->
  exists j, tidy primops argv src = Ok (j, 0%Z) /\ says_all shows_diag j (ds ++ more).
Proof.
  intros HP HM HT. destruct (writes_all diagToJSON shows_diag (ds ++ more)) as (j & E & H); [intros d I; apply writes_diag, HT, I|].
  exists j. split; [|exact H]. unfold tidy. rewrite HP. cbn [bind]. destruct ast as [root|].
  - destruct HM as (s & HV & [[F ->]|[F ->]]).
    + apply parseArgs_lookup in F. rewrite F, HV. cbn [bind]. now rewrite E.
    + destruct (snd (parseArgs argv)) eqn:G; [apply parseArgs_lookup in G; now destruct F|]. cbn [bind].
      rewrite app_nil_r in E. now rewrite E.
  - subst more. cbn [bind]. rewrite app_nil_r in E. now rewrite E.
Qed.

(** ** C92 *)
Lemma drun_app me de an l l' : drun me de an (l ++ l') = fold_left (fun s e => dstep me de an e s) l' (drun me de an l).
Proof. unfold drun. apply fold_left_app. Qed.
Lemma nth_last {A} (l : list A) x : nth_error (l ++ [x]) (List.length l) = Some x.
Proof. induction l; [reflexivity|exact IHl]. Qed.
Lemma life_ends methods decodes answer es msg id bye es' :
  running (fst (life methods decodes answer es)) = true -> In (b "shutdown") methods -> (forall p, decodes (b "shutdown") p = true) ->
  is_request msg id "shutdown" -> is_notification bye "exit" -> (forall e, In e es' -> exists m, e = Message m) ->
  let n := List.length (tasks (fst (life methods decodes answer es))) in
  let before := fst (life methods decodes answer es) in
  let after := life methods decodes answer (es ++ [Message msg; Finish n; Message bye] ++ es') in
  snd after = 0%Z /\ running (fst after) = false /\ sent (fst after) = sent before ++ [(id, Result JNull)] /\
  tasks (fst after) = tasks before.
Proof.
  intros R M D (o & -> & Oj & Oi & Om) (o' & -> & Oj' & Oi' & Om') L n before after.
  split; [reflexivity|]. subst after n before. unfold life in *. cbn [fst] in *. rewrite drun_app. set (s := drun _ _ _ es) in *. clearbody s.
  cbn [app fold_left dstep]. rewrite R. apply get_field in Oj, Oi, Om, Oj', Om'. apply get_absent in Oi'.
  assert (K : method_known methods (b "shutdown") = true).
  { unfold method_known. apply existsb_exists. exists (b "shutdown"). split; [exact M|apply beq_refl]. }
  assert (E1 : exists p, dispatch methods decodes (JObject o) s = DState (tasks s ++ [Task id (b "shutdown") p]) (sent s) true (replies_in s)).
  { eexists. unfold dispatch, getString. cbn [getAsObject]. rewrite Oj, Oi, Om. rewrite beq_refl. cbn [negb]. cbv zeta.
    cbv iota. rewrite K, D, R. reflexivity. }
  destruct E1 as [p E1]. rewrite E1. cbn [tasks]. rewrite nth_last.
  assert (F1 : firstn (List.length (tasks s)) (tasks s ++ [Task id (b "shutdown") p]) = tasks s).
  { rewrite firstn_app, Nat.sub_diag, firstn_all. cbn. apply app_nil_r. }
  assert (F2 : skipn (S (List.length (tasks s))) (tasks s ++ [Task id (b "shutdown") p]) = []).
  { apply skipn_all2. rewrite app_length. cbn. lia. }
  rewrite F1, F2, app_nil_r. cbn [sent running replies_in t_id t_method t_params]. cbn iota.
  assert (E2 : forall s', dispatch methods decodes (JObject o') s' = DState (tasks s') (sent s') false (replies_in s')).
  { intro s'. unfold dispatch, getString. cbn [getAsObject]. rewrite Oj', Om', Oi'. reflexivity. }
  rewrite E2. cbn [tasks sent replies_in].
  assert (G : forall l t, (forall e, In e l -> exists m, e = Message m) -> running t = false ->
    fold_left (fun s e => dstep methods decodes (answers answer) e s) l t = t).
  { induction l as [|e l IH]; intros t Hl Ht; [reflexivity|]. cbn [fold_left]. destruct (Hl e (or_introl eq_refl)) as [m ->].
    cbn [dstep]. rewrite Ht. apply IH; [intros x I; apply Hl; now right|exact Ht]. }
  rewrite G; [|exact L|reflexivity]. cbn [running sent tasks]. repeat split.
Qed.
