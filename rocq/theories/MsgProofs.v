(** Lemmas for C86 - C90. *)
From Verif Require Import Base TextModel TextSpec UriModel UriSpec ConnModel EvalModel EvalSpec EvalProofs ActModel FeatModel ReqModel MsgModel MsgSpec.
From Coq Require Import Sorted Lia.

Lemma get_field o k v : field o k v <-> get (b k) o = Some v.
Proof.
  split.
  - intros (l & l' & -> & N). induction l as [|[x j] l IH]; cbn [app get].
    + now rewrite beq_refl.
    + destruct (bytes_eqb (b k) x) eqn:E; [apply beq_eq in E; subst x; destruct N; now left|].
      apply IH. intro I. apply N. now right.
  - induction o as [|[x j] o IH]; cbn [get]; [discriminate|]. destruct (bytes_eqb (b k) x) eqn:E.
    + intros [= ->]. apply beq_eq in E. subst x. exists [], o. split; [reflexivity|auto].
    + intro G. destruct (IH G) as (l & l' & -> & N). exists ((x, j) :: l), l'. split; [reflexivity|].
      cbn [map fst]. intros [->|I]; [now rewrite beq_refl in E|now apply N].
Qed.
Lemma get_absent o k : absent o k <-> get (b k) o = None.
Proof.
  split.
  - unfold absent. induction o as [|[x j] o IH]; cbn [get map fst]; intro N; [reflexivity|].
    destruct (bytes_eqb (b k) x) eqn:E; [apply beq_eq in E; destruct N; left; now symmetry|]. apply IH. intro I. apply N. now right.
  - unfold absent. induction o as [|[x j] o IH]; cbn [get map fst]; [auto|]. destruct (bytes_eqb (b k) x) eqn:E; [discriminate|].
    intros G [->|I]; [now rewrite beq_refl in E|now apply IH].
Qed.

(** ** C86 *)
Lemma rt_textEdit e : plain_edit e -> rt textEditToJSON textEditFromJSON e.
Proof.
  destruct e as [r t a]. intros [Ht Ha]. cbn [te_text te_annotation] in *.
  destruct (rt_range r) as (jr & Er & Nr & Rr). destruct (rt_string t Ht) as (jt & Et & Nt & Rt).
  destruct (rt_string a Ha) as (ja & Ea & Na & Ra).
  unfold rt, textEditToJSON, jobject. cbn [te_range te_text te_annotation].
  destruct a as [|c a]; unfold jtext; cbn [app jfields]; rewrite Er, Et, ?Ea; cbn [bind]; eexists; (split; [reflexivity|]);
    (split; [discriminate|]); unfold textEditFromJSON, omap, omapOptional; cbn -[rangeFromJSON fromString];
    rewrite Rr, Rt, ?Ra; reflexivity.
Qed.
Lemma rt_edits l : all_of plain_edit l -> rt (jvector textEditToJSON) (fromVector textEditFromJSON) l.
Proof. intro H. apply rt_vector. intros a I. apply rt_textEdit, H, I. Qed.
Lemma rt_versioned d : path_survives (fst d) -> rt versionedToJSON versionedFromJSON d.
Proof.
  destruct d as [f v]. cbn [fst]. intro H. destruct (rt_uri f H) as (ju & Eu & Nu & Ru).
  unfold rt, versionedToJSON, jobject. cbn [jfields fst snd]. rewrite Eu. destruct v as [v|]; cbn [bind joptional]; eexists;
    (split; [reflexivity|]); (split; [discriminate|]); unfold versionedFromJSON, omap, omapO; cbn -[uriFromJSON]; now rewrite Ru.
Qed.
Lemma rt_documentEdit d : plain_documentEdit d -> rt documentEditToJSON documentEditFromJSON d.
Proof.
  destruct d as [f v l]. intros [Hf Hl]. cbn [de_file de_edits] in *.
  destruct (rt_versioned (f, v) Hf) as (jd & Ed & Nd & Rd). destruct (rt_edits l Hl) as (jl & El & Nl & Rl).
  unfold rt, documentEditToJSON, jobject. cbn [jfields de_file de_version de_edits]. rewrite Ed, El. cbn [bind].
  eexists. split; [reflexivity|]. split; [discriminate|]. unfold documentEditFromJSON, omap. cbn -[versionedFromJSON fromVector].
  rewrite Rd, Rl. reflexivity.
Qed.
Lemma rt_docChange c : edits_text c -> rt docChangeToJSON docChangeFromJSON c.
Proof.
  intros (d & -> & Hd). destruct (rt_documentEdit d Hd) as (j & E & N & R). exists j. split; [exact E|]. split; [exact N|].
  unfold docChangeFromJSON. rewrite R. revert E. unfold documentEditToJSON, jobject. cbn [jfields].
  destruct (versionedToJSON (de_file d, de_version d)) as [jv| |]; cbn [bind]; try discriminate.
  destruct (jvector textEditToJSON (de_edits d)) as [je| |]; cbn [bind]; try discriminate. intros [= <-]. reflexivity.
Qed.
Lemma rt_changes l : plain_changes l -> rt (jmap (jvector textEditToJSON)) (fromMap (fromVector textEditFromJSON)) l.
Proof.
  intros [Hs Ha].
  assert (G : exists js, jmapFields (jvector textEditToJSON) l = Ok js /\ fromMapFields (fromVector textEditFromJSON) js = Some l).
  { induction l as [|[x a] l IH]; [exists []; split; reflexivity|].
    inversion Hs as [|? ? Hs' Hx]; subst. destruct (Ha (x, a) (or_introl eq_refl)) as [Tx Ta]. cbn [fst snd] in *.
    destruct (rt_string x Tx) as (jx & Ex & _ & _). destruct (rt_edits a Ta) as (j & E & _ & R).
    destruct IH as (js & E' & R'); [exact Hs'|intros y I; apply Ha; now right|].
    exists ((x, j) :: js). cbn [jmapFields fromMapFields]. rewrite Ex. cbn [bind]. rewrite E. cbn [bind]. rewrite E'. cbn [bind].
    rewrite R, R'. split; [reflexivity|]. destruct l as [|[y c] l]; [reflexivity|].
    inversion Hx as [|? ? L _]; subst. unfold before_ in L. cbn [fst] in L. cbn [mapInsert]. now rewrite L. }
  destruct G as (js & E & R). exists (JObject js). unfold jmap. rewrite E. cbn [bind]. repeat split; [discriminate|exact R].
Qed.
Lemma from_opt {A} (w : A -> res json) r a j : w a = Ok j -> j <> JNull -> r j = Some a -> fromOptional r j = Some (Some a).
Proof. intros _ N R. unfold fromOptional. rewrite R. destruct j; try reflexivity. now destruct N. Qed.
Lemma rt_workspaceEdit w : text_only w -> rt workspaceEditToJSON workspaceEditFromJSON w.
Proof.
  destruct w as [c d]. intros [Hc Hd]. cbn [we_changes we_documentChanges] in *.
  unfold rt, workspaceEditToJSON, jobject. cbn [we_changes we_documentChanges].
  assert (C : forall x, c = Some x -> rt (jmap (jvector textEditToJSON)) (fromMap (fromVector textEditFromJSON)) x)
    by (intros x E; apply rt_changes, Hc, E).
  assert (D : forall x, d = Some x -> rt (jvector docChangeToJSON) (fromVector docChangeFromJSON) x)
    by (intros x E; apply rt_vector; intros y I; apply rt_docChange, (Hd x E), I).
  destruct c as [c|]; [destruct (C c eq_refl) as (jc & Ec & Nc & Rc); pose proof (from_opt _ _ _ _ Ec Nc Rc) as Fc|];
    (destruct d as [d|]; [destruct (D d eq_refl) as (jd & Ed & Nd & Rd); pose proof (from_opt _ _ _ _ Ed Nd Rd) as Fd|]);
    unfold jmaybe; cbn [app jfields]; rewrite ?Ec, ?Ed; cbn [bind]; eexists; (split; [reflexivity|]); (split; [discriminate|]);
    unfold workspaceEditFromJSON, omapO; cbn -[fromOptional]; rewrite ?Fc, ?Fd; reflexivity.
Qed.
Lemma rt_codeAction a : sendable a -> rt codeActionToJSON codeActionFromJSON a.
Proof.
  destruct a as [t k p e x]. intros (Ht & Hk & He). cbn [ca_title ca_kind ca_edit] in *.
  destruct (rt_string t Ht) as (jt & Et & Nt & Rt).
  unfold rt, codeActionToJSON, jobject. cbn [ca_title ca_kind ca_preferred ca_edit ca_data].
  assert (K : forall y, k = Some y -> rt jstring fromString y) by (intros y E; apply rt_string, Hk, E).
  assert (D : forall y, e = Some y -> rt workspaceEditToJSON workspaceEditFromJSON y) by (intros y E; apply rt_workspaceEdit, He, E).
  destruct k as [k|]; [destruct (K k eq_refl) as (jk & Ek & Nk & Rk); pose proof (from_opt _ _ _ _ Ek Nk Rk) as Fk|];
    (destruct e as [e|]; [destruct (D e eq_refl) as (je & Ee & Ne & Re); pose proof (from_opt _ _ _ _ Ee Ne Re) as Fe|]);
    destruct p, x as [x|]; unfold jmaybe; cbn [app jfields]; rewrite Et, ?Ek, ?Ee; cbn [bind jbool]; eexists; (split; [reflexivity|]);
    (split; [discriminate|]); unfold codeActionFromJSON, omap, omapO; cbn -[fromOptional fromString]; rewrite Rt, ?Fk, ?Fe; reflexivity.
Qed.
(** what is written says what it should *)
Definition told {A} (w : A -> res json) (says : json -> A -> Prop) (a : A) : Prop := forall j, w a = Ok j -> says j a.
Lemma has_at {A} o k (says : json -> A -> Prop) a v : get (b k) o = Some v -> says v a -> has o k says a.
Proof. intros G S. exists v. split; [now apply get_field|exact S]. Qed.
Lemma bind_inv {A B} (m : res A) (k : A -> res B) x : bind m k = Ok x -> exists a, m = Ok a /\ k a = Ok x.
Proof. destruct m as [a| |]; cbn [bind]; try discriminate. eauto. Qed.
Lemma jstring_inv s j : jstring s = Ok j -> j = JString s.
Proof. unfold jstring. destruct (isUTF8 s); [now intros [= <-]|discriminate]. Qed.
Lemma says_range_to r j : rangeToJSON r = Ok j -> says_range j r.
Proof.
  destruct r as [[l c] [l' c']]. intros [= <-]. do 3 eexists. split; [reflexivity|]. split; [apply get_field; reflexivity|].
  split; [|split; [apply get_field; reflexivity|]]; do 3 eexists; (split; [reflexivity|]); (split; [apply get_field; reflexivity|]);
    (split; [now left|]); (split; [apply get_field; reflexivity|now left]).
Qed.
Lemma told_all {A} (w : A -> res json) says l : all_of (told w says) l -> told (jvector w) (says_all says) l.
Proof.
  intros H j E. unfold jvector in E. apply bind_inv in E as (js & E & [= <-]). exists js. split; [reflexivity|].
  revert js E. induction l as [|a l IH]; intros js E; cbn [jelements] in E.
  - injection E as <-. constructor.
  - apply bind_inv in E as (x & Ex & E). apply bind_inv in E as (xs & Exs & [= <-]). constructor; [apply H; [now left|exact Ex]|].
    apply IH; [intros y I; apply H; now right|exact Exs].
Qed.
Ltac spot := eapply has_at; [reflexivity|].
Ltac found := apply get_field; reflexivity.
Ltac gone := apply get_absent; reflexivity.
Lemma told_edit e : told textEditToJSON says_edit e.
Proof.
  destruct e as [r t a]. intros j. unfold textEditToJSON, jobject. cbn [te_range te_text te_annotation]. intro E.
  apply bind_inv in E as (fs & E & [= <-]). cbn [app jfields] in E. apply bind_inv in E as (jr & Er & E).
  apply bind_inv in E as (l & E & [= <-]). apply bind_inv in E as (jt & Et & E). apply jstring_inv in Et. subst jt.
  apply bind_inv in E as (l' & E & [= <-]). apply says_range_to in Er. eexists. split; [reflexivity|]. cbn [te_range te_text te_annotation].
  split; [spot; exact Er|]. split; [spot; reflexivity|]. destruct a as [|c a]; cbn [jtext jfields] in E.
  - injection E as <-. left. split; [reflexivity|gone].
  - apply bind_inv in E as (ja & Ea & E). apply jstring_inv in Ea. subst ja. injection E as <-. right. found.
Qed.
Lemma told_edits l : told (jvector textEditToJSON) (says_all says_edit) l.
Proof. apply told_all. intros a _. apply told_edit. Qed.
Lemma told_documentEdit d : plain_documentEdit d -> told documentEditToJSON says_documentEdit d.
Proof.
  destruct d as [f v l]. intros [Hf _] j. cbn [de_file] in Hf. unfold documentEditToJSON, versionedToJSON, jobject.
  cbn [de_file de_version de_edits fst snd jfields]. intro E. apply bind_inv in E as (fs & E & [= <-]).
  apply bind_inv in E as (jd & Ed & E). apply bind_inv in E as (fs' & E & [= <-]). apply bind_inv in E as (je & Ee & E). injection E as <-.
  apply bind_inv in Ed as (gs & Ed & [= <-]). apply bind_inv in Ed as (ju & Eu & Ed). destruct (rt_uri f Hf) as (ju' & Eu' & _ & Ru).
  rewrite Eu in Eu'. injection Eu' as <-. assert (Su : says_file ju f).
  { unfold uriFromJSON in Ru. destruct ju as [| | | |s| |]; try discriminate Ru. exists s. split; [reflexivity|].
    destruct (fileOfUri s) as [[p|]| |]; try discriminate Ru. now injection Ru as ->. }
  apply bind_inv in Ed as (gs' & Ed & [= <-]). apply bind_inv in Ed as (jv & Ev & [= <-]).
  do 2 eexists. split; [reflexivity|]. split; [found|]. cbn [de_file de_version de_edits]. split; [spot; exact Su|]. split.
  - destruct v as [v|]; cbn [joptional] in Ev; injection Ev as <-; cbn [says_maybe].
    + eexists. split; [found|now left].
    + right. found.
  - spot. now apply told_edits.
Qed.
Lemma told_docChange c : edits_text c -> told docChangeToJSON says_docChange c.
Proof. intros (d & -> & H) j E. exists d. split; [reflexivity|]. now apply told_documentEdit. Qed.
Lemma told_mapping l : told (jmap (jvector textEditToJSON)) says_mapping l.
Proof.
  intros j E. unfold jmap in E. apply bind_inv in E as (o & E & [= <-]). exists o. split; [reflexivity|]. revert o E.
  induction l as [|[x a] l IH]; intros o E; cbn [jmapFields] in E; [injection E as <-; constructor|].
  apply bind_inv in E as (jx & _ & E). apply bind_inv in E as (ja & Ea & E). apply bind_inv in E as (o' & E & [= <-]).
  constructor; [|now apply IH]. cbn [fst snd]. split; [reflexivity|now apply told_edits].
Qed.
Lemma told_workspaceEdit w : text_only w -> told workspaceEditToJSON says_workspaceEdit w.
Proof.
  destruct w as [c d]. intros [_ Hd] j. cbn [we_documentChanges] in Hd. unfold workspaceEditToJSON, jobject. cbn [we_changes we_documentChanges].
  intro E. apply bind_inv in E as (o & E & [= <-]). exists o. split; [reflexivity|]. cbn [we_changes we_documentChanges].
  destruct c as [c|], d as [d|]; unfold jmaybe in E; cbn [app jfields] in E;
    repeat (let x := fresh "j" in let H := fresh "E" in apply bind_inv in E as (x & H & E) || injection E as <-);
    repeat match goal with H : bind _ _ = Ok _ |- _ => let x := fresh "j" in let K := fresh "E" in apply bind_inv in H as (x & K & H); injection H as <- end;
    repeat match goal with H : Ok _ = Ok _ |- _ => injection H as <- end.
  - split; (eexists; split; [found|]).
    + now apply told_mapping.
    + eapply told_all; [|eassumption]. intros y I. apply told_docChange, (Hd d eq_refl), I.
  - split; [eexists; split; [found|now apply told_mapping]|left; gone].
  - split; [left; gone|]. eexists; split; [found|]. eapply told_all; [|eassumption]. intros y I. apply told_docChange, (Hd d eq_refl), I.
  - split; left; gone.
Qed.
Ltac unbind := repeat match goal with
  | H : bind _ _ = Ok _ |- _ => let x := fresh "j" in let K := fresh "E" in apply bind_inv in H as (x & K & H)
  | H : Ok _ = Ok _ |- _ => injection H as <-
  | H : jstring _ = Ok _ |- _ => apply jstring_inv in H; subst
  end.
Lemma told_codeAction a : sendable a -> told codeActionToJSON says_action a.
Proof.
  destruct a as [t k p e x]. intros (_ & _ & He) j. cbn [ca_edit] in He. unfold codeActionToJSON, jobject.
  cbn [ca_title ca_kind ca_preferred ca_edit ca_data]. intro E. apply bind_inv in E as (o & E & [= <-]). exists o. split; [reflexivity|].
  cbn [ca_title ca_kind ca_preferred ca_edit ca_data].
  assert (W : forall w jw, e = Some w -> workspaceEditToJSON w = Ok jw -> says_workspaceEdit jw w).
  { intros w jw Q Ew. apply told_workspaceEdit; [apply He, Q|exact Ew]. }
  destruct k as [k|], p, e as [e|], x as [x|]; unfold jmaybe, jbool in E; cbn [app jfields] in E; unbind;
    (split; [spot; reflexivity|]);
    (split; [first [left; gone|eexists; split; [found|reflexivity]]|]);
    (split; [first [left; split; [reflexivity|gone]|right; split; [reflexivity|found]]|]);
    (split; [first [left; gone|eexists; split; [found|eapply W; [reflexivity|eassumption]]]|
             first [left; gone|eexists; split; [found|reflexivity]]]).
Qed.
Lemma resolved_action a : sendable a -> exists j opened, codeActionToJSON a = Ok j /\ says_action j a /\ onCodeActionResolve j = Ok (Answered j opened) /\
  (forall u, opened = Some u <-> address a u).
Proof.
  intro H. destruct (rt_codeAction a H) as (j & E & _ & R). exists j. eexists. split; [exact E|].
  split; [exact (told_codeAction a H j E)|]. unfold onCodeActionResolve. rewrite R, E. cbn [bind]. split; [reflexivity|]. intro u. unfold address. destruct (ca_data a) as [d|].
  - destruct d as [| | | | | |o]; try (split; [discriminate|intros (o & X & _); discriminate X]).
    unfold getString. split.
    + intro G. exists o. split; [reflexivity|]. apply get_field. destruct (get (b "noogleUrl") o) as [v|]; [|discriminate].
      destruct v; try discriminate. now injection G as ->.
    + intros (o' & X & F). injection X as <-. apply get_field in F. now rewrite F.
  - split; [discriminate|intros (o & X & _); discriminate X].
Qed.

(** ** C87 *)
Lemma resolved_package ask parse (x : bytes) r (scope : list bytes) prefix text j jt jx :
  x <> [] -> is_text x -> is_text text -> text <> [] -> completeToJSON (CompleteParams scope prefix) = Ok j -> parse text = Some j ->
  all_of is_text scope -> is_text prefix ->
  let d := match ask (scope ++ [x]) with Some i => ai_PackageDesc i | None => PackageDescription None None None None None None None end in
  let version := match pk_Version d with Some v => v | None => b "?" end in
  let words := match pk_Description d with Some v => v | None => [] end ++ LF ++ LF ++
               match pk_LongDescription d with Some v => v | None => [] end in
  jstring version = Ok jt -> jstring words = Ok jx ->
  exists request o, itemToJSON (packageItem x r text) = Ok request /\
    onCompletionItemResolve (Some ask) parse request = Ok (Answered (JObject o) None) /\
    get (b "label") o = Some (JString x) /\ get (b "kind") o = Some (JInt 5) /\
    (exists e, textEditToJSON (TextEdit r x []) = Ok e /\ get (b "textEdit") o = Some e) /\
    get (b "data") o = Some (JString text) /\
    (version <> [] -> get (b "detail") o = Some (JString version)) /\
    get (b "documentation") o = Some (JObject [(b "kind", JString (b "markdown")); (b "value", JString words)]) /\
    get (b "insertTextFormat") o = Some (JInt 5).
Proof.
  intros Hx Tx Tt Ht Ej Pj Ts Tp d version words Ev Ew.
  assert (Tnil : is_text []) by (exists []; split; [constructor|reflexivity]).
  destruct (rt_textEdit (TextEdit r x []) (conj Tx Tnil)) as (je & Ee & Ne & Re).
  pose proof (from_opt _ _ _ _ Ee Ne Re) as Fe.
  assert (Jx : jstring x = Ok (JString x)) by (unfold jstring; now rewrite (isUTF8_text x Tx)).
  assert (Jt : jstring text = Ok (JString text)) by (unfold jstring; now rewrite (isUTF8_text text Tt)).
  assert (Jv : jstring version = Ok (JString version)) by (revert Ev; unfold jstring; destruct (isUTF8 version); [reflexivity|discriminate]).
  assert (Jw : jstring words = Ok (JString words)) by (revert Ew; unfold jstring; destruct (isUTF8 words); [reflexivity|discriminate]).
  assert (Q : itemToJSON (packageItem x r text) = Ok (JObject [(b "label", JString x); (b "kind", JInt 5); (b "textEdit", je);
      (b "score", JDouble (Some 0%Z)); (b "data", JString text)])).
  { unfold itemToJSON, packageItem. cbn [ci_label ci_kind ci_detail ci_documentation ci_sortText ci_filterText ci_insertText ci_format
      ci_textEdit ci_additional ci_deprecated ci_data]. destruct x as [|c x]; [congruence|]. unfold jnumber, jtext, jmaybe, jobject.
    cbn [Z.eqb app jfields]. rewrite Jx, Ee, Jt. reflexivity. }
  set (i := Item x 5 [] None [] [] [] 5 (Some (TextEdit r x [])) [] false text).
  assert (R : itemFromJSON (JObject [(b "label", JString x); (b "kind", JInt 5); (b "textEdit", je);
      (b "score", JDouble (Some 0%Z)); (b "data", JString text)]) = Ok (Some i)).
  { unfold itemFromJSON, omap, omapOptional. cbn -[fromOptional]. rewrite Fe. reflexivity. }
  assert (S : match getAsObject j with Some o => keep [] (omap "Scope" (fromVector fromString) o) | None => [] end = scope).
  { destruct (rt_params (CompleteParams scope prefix) (conj Ts Tp)) as (j' & E' & _ & R'). rewrite Ej in E'. injection E' as <-.
    unfold completeFromJSON in R'. destruct (getAsObject j) as [o|]; [|discriminate].
    destruct (omap "Scope" (fromVector fromString) o) as [s|]; [|discriminate]. destruct (omap "Prefix" fromString o); [|discriminate].
    injection R' as -> _. reflexivity. }
  assert (Wn : exists c w, words = c :: w).
  { unfold words. destruct (pk_Description d) as [[|c w]|]; cbn [app]; eauto; unfold LF; cbn; eauto. }
  destruct Wn as (wc & w & Wn).
  assert (P : resolvePackage ask scope i = Item x 5 version (Some (true, words)) [] [] [] 5 (Some (TextEdit r x [])) [] false text).
  { unfold resolvePackage, i. cbn [ci_label ci_kind ci_detail ci_documentation ci_sortText ci_filterText ci_insertText ci_format
      ci_textEdit ci_additional ci_deprecated ci_data]. unfold words, version, d. clear. change (@app bytes scope [x]) with (scope ++ [x]). destruct (ask (scope ++ [x])) as [?|]; cbn; reflexivity. }
  eexists. 
  assert (F : exists o, itemToJSON (resolvePackage ask scope i) = Ok (JObject o) /\
    get (b "label") o = Some (JString x) /\ get (b "kind") o = Some (JInt 5) /\ get (b "textEdit") o = Some je /\
    get (b "data") o = Some (JString text) /\ (version <> [] -> get (b "detail") o = Some (JString version)) /\
    get (b "documentation") o = Some (JObject [(b "kind", JString (b "markdown")); (b "value", JString words)]) /\
    get (b "insertTextFormat") o = Some (JInt 5)).
  { rewrite P. unfold itemToJSON. cbn [ci_label ci_kind ci_detail ci_documentation ci_sortText ci_filterText ci_insertText ci_format
      ci_textEdit ci_additional ci_deprecated ci_data]. destruct x as [|c x]; [congruence|].
    assert (M : markupToJSON (true, words) = Ok (JObject [(b "kind", JString (b "markdown")); (b "value", JString words)])).
    { unfold markupToJSON. cbn [snd fst]. rewrite Wn, <- Wn. unfold jobject. cbn [jfields]. rewrite Jw. reflexivity. }
    unfold jnumber, jtext, jmaybe, jobject. cbn [Z.eqb app].
    destruct version as [|vc v]; cbn [app jfields]; rewrite Jx, ?Jv, M, Ee, Jt; cbn [bind]; eexists; (split; [reflexivity|]);
      cbn; repeat split; try reflexivity; intro; congruence. }
  destruct F as (o & Eo & F1 & F2 & F3 & F4 & F5 & F6 & F7).
  exists o. split; [exact Q|]. split.
  - unfold onCompletionItemResolve. rewrite R. cbn [bind].
    replace (ci_data i) with text by reflexivity. destruct text as [|tc text]; [congruence|]. rewrite Pj. cbv zeta. rewrite S, Eo. reflexivity.
  - repeat split; try assumption. exists je. split; [exact Ee|exact F3].
Qed.

Lemma told_item i : if_present (fun m => snd m <> [] /\ is_text (snd m)) (ci_documentation i) -> told itemToJSON says_item i.
Proof.
  destruct i as [lb kd de dc so fi it fm te ad dp dt]. cbn [ci_documentation]. intros Hd j. unfold itemToJSON.
  cbn [ci_label ci_kind ci_detail ci_documentation ci_sortText ci_filterText ci_insertText ci_format ci_textEdit ci_additional ci_deprecated ci_data].
  destruct lb as [|lc lb]; [discriminate|]. unfold jobject. intro E. apply bind_inv in E as (o & E & [= <-]). exists o. split; [reflexivity|].
  cbn [ci_label ci_kind ci_detail ci_documentation ci_sortText ci_filterText ci_insertText ci_format ci_textEdit ci_additional ci_deprecated ci_data].
  assert (M : forall m jm, dc = Some m -> markupToJSON m = Ok jm -> says_markup jm m).
  { intros [md t] jm Q Em. destruct (Hd _ Q) as [N _]. unfold markupToJSON in Em. cbn [snd fst] in *. destruct t as [|tc t]; [congruence|].
    unfold jobject in Em. cbn [jfields] in Em. unbind. eexists. split; [reflexivity|]. split; spot; reflexivity. }
  assert (T : forall e je, te = Some e -> textEditToJSON e = Ok je -> says_edit je e) by (intros e je _ Ee; now apply told_edit).
  (* the list of fields, piece by piece *)
  assert (P : forall l l' r, jfields (l ++ l') = Ok r -> exists r1 r2, jfields l = Ok r1 /\ jfields l' = Ok r2 /\ r = r1 ++ r2).
  { clear. induction l as [|[k v] l IH]; cbn [app jfields]; intros l' r H; [exists [], r; repeat split; exact H|].
    apply bind_inv in H as (x & Ex & H). apply bind_inv in H as (y & Ey & [= <-]). apply IH in Ey as (r1 & r2 & E1 & E2 & ->).
    exists ((b k, x) :: r1), r2. rewrite Ex. cbn [bind]. rewrite E1. now repeat split. }
  assert (GA : forall k l l', get k (l ++ l') = match get k l with Some v => Some v | None => get k l' end).
  { clear. induction l as [|[x j] l IH]; intro l'; cbn [app get]; [reflexivity|]. destruct (bytes_eqb k x); [reflexivity|apply IH]. }
  repeat (apply P in E as (? & ? & ? & E & ->)).
  set (only := fun (k : string) (r : list (bytes * json)) => forall k', bytes_eqb k' (b k) = false -> get k' r = None).
  assert (O0 : forall k, only k []) by (intros k k' _; reflexivity).
  assert (O1 : forall k v, only k [(b k, v)]) by (intros k v k' N; cbn [get]; now rewrite N).
  assert (TX : forall k s r, jfields (jtext k s) = Ok r -> only k r /\ ((s = [] /\ r = []) \/ r = [(b k, JString s)])).
  { intros k [|c s] r Q; cbn [jtext jfields] in Q; [injection Q as <-; split; [apply O0|now left]|].
    apply bind_inv in Q as (js & Ejs & Q). apply jstring_inv in Ejs. subst js. injection Q as <-. split; [apply O1|now right]. }
  assert (NX : forall k z r, jfields (jnumber k z) = Ok r -> only k r /\ ((z = 0%Z /\ r = []) \/ r = [(b k, JInt z)])).
  { intros k z r. unfold jnumber. destruct (Z.eqb_spec z 0); cbn [jfields bind]; intros [= <-]; split; [apply O0|now left|apply O1|now right]. }
  assert (OX : forall A k w (x : option A) r, jfields (jmaybe k w x) = Ok r -> only k r /\
     ((x = None /\ r = []) \/ exists a v, x = Some a /\ w a = Ok v /\ r = [(b k, v)])).
  { intros A k w [a|] r; unfold jmaybe; cbn [jfields]; intro Q; [|injection Q as <-; split; [apply O0|now left]].
    apply bind_inv in Q as (v & Ev & Q). injection Q as <-. split; [apply O1|right; eauto 6]. }
  assert (AX : forall r, jfields match ad with [] => [] | t :: l0 => [("additionalTextEdits"%string, jvector textEditToJSON (t :: l0))] end = Ok r ->
     only "additionalTextEdits"%string r /\ ((ad = [] /\ r = []) \/ exists v, jvector textEditToJSON ad = Ok v /\ r = [(b "additionalTextEdits", v)])).
  { intros r Q. destruct ad as [|a ad']; [injection Q as <-; split; [apply O0|now left]|]. cbn [jfields] in Q.
    apply bind_inv in Q as (v & Ev & Q). injection Q as <-. split; [apply O1|right; eauto]. }
  assert (DX : forall r, jfields (if dp then [("deprecated"%string, jbool true)] else []) = Ok r -> only "deprecated"%string r /\
     ((dp = false /\ r = []) \/ (dp = true /\ r = [(b "deprecated", JBool true)]))).
  { intros r. destruct dp; unfold jbool; cbn [jfields bind]; intros [= <-]; split; [apply O1|now right|apply O0|now left]. }
  repeat match goal with
  | H : jfields (jtext _ _) = Ok _ |- _ => apply TX in H as [? H]
  | H : jfields (jnumber _ _) = Ok _ |- _ => apply NX in H as [? H]
  | H : jfields (jmaybe _ _ _) = Ok _ |- _ => apply OX in H as [? H]
  | H : jfields match ad with [] => _ | _ => _ end = Ok _ |- _ => apply AX in H as [? H]
  | H : jfields (if dp then _ else _) = Ok _ |- _ => apply DX in H as [? H]
  | H : jfields [_] = Ok _ |- _ => cbn [jfields] in H; unbind
  | H : jfields [_; _] = Ok _ |- _ => cbn [jfields] in H; unbind
  end.
  clear TX NX OX AX DX P.
  assert (AA : forall (k : string) (r : list (bytes * json)), get (b k) r = None -> absent r k) by (intros k r Q; now apply get_absent).
  assert (FF : forall (k : string) (r : list (bytes * json)) v, get (b k) r = Some v -> field r k v) by (intros k r v Q; now apply get_field).
  Ltac skip_others GA := repeat rewrite GA; repeat match goal with
    | H : ?only _ ?r |- context [get (b ?k) ?r] => rewrite (H (b k)) by reflexivity
    end; try reflexivity.
  split; [eapply has_at; [skip_others GA|reflexivity]|].
  split. { unfold says_int. destruct H0 as [[-> ->]| ->]; [left; split; [reflexivity|apply AA; skip_others GA]|right; eapply has_at; [skip_others GA|now left]]. }
  split. { unfold says_texts. destruct H1 as [[-> ->]| ->]; [left; split; [reflexivity|apply AA; skip_others GA]|right; apply FF; skip_others GA]. }
  split. { destruct H2 as [[-> ->]|(m & v & -> & Em & ->)]; cbn [says_maybe]; [left; apply AA; skip_others GA|].
           exists v. split; [apply FF; skip_others GA|now apply M]. }
  split. { unfold says_texts. destruct H3 as [[-> ->]| ->]; [left; split; [reflexivity|apply AA; skip_others GA]|right; apply FF; skip_others GA]. }
  split. { unfold says_texts. destruct H4 as [[-> ->]| ->]; [left; split; [reflexivity|apply AA; skip_others GA]|right; apply FF; skip_others GA]. }
  split. { unfold says_texts. destruct H5 as [[-> ->]| ->]; [left; split; [reflexivity|apply AA; skip_others GA]|right; apply FF; skip_others GA]. }
  split. { unfold says_int. destruct H6 as [[-> ->]| ->]; [left; split; [reflexivity|apply AA; skip_others GA]|right; eapply has_at; [skip_others GA|now left]]. }
  split. { destruct H7 as [[-> ->]|(m & v & -> & Em & ->)]; cbn [says_maybe]; [left; apply AA; skip_others GA|].
           exists v. split; [apply FF; skip_others GA|now apply T]. }
  split. { destruct H8 as [[-> ->]|(v & Ev & ->)]; [left; split; [reflexivity|apply AA; skip_others GA]|right]. eapply has_at; [skip_others GA|now apply told_edits]. }
  split. { unfold says_flag. destruct H9 as [[-> ->]|[-> ->]]; [left; split; [reflexivity|apply AA; skip_others GA]|right; split; [reflexivity|apply FF; skip_others GA]]. }
  eapply has_at; [skip_others GA|reflexivity].
Qed.

(** ** C88 *)
Lemma read_number j z : says_number j z -> fromInt64 j = Some z.
Proof. intros [->| ->]; reflexivity. Qed.
Lemma read_position j p : says_position j p -> positionFromJSON j = Some p.
Proof.
  intros (o & l & c & -> & Fl & Nl & Fc & Nc). apply get_field in Fl, Fc. unfold positionFromJSON, omap. cbn [getAsObject].
  rewrite Fl, (read_number _ _ Nl), Fc, (read_number _ _ Nc). now destruct p.
Qed.
Lemma read_range j r : says_range j r -> rangeFromJSON j = Some r.
Proof.
  intros (o & s & e & -> & Fs & Ps & Fe & Pe). apply get_field in Fs, Fe. unfold rangeFromJSON, omap. cbn [getAsObject].
  rewrite Fs, (read_position _ _ Ps), Fe, (read_position _ _ Pe). now destruct r.
Qed.
Lemma read_file j f : says_file j f -> uriFromJSON j = Some f.
Proof. intros (u & -> & E). unfold uriFromJSON. now rewrite E. Qed.
Lemma read_document j f : says_document j f -> documentFromJSON j = Some f.
Proof.
  intros (o & u & -> & Fu & Su). apply get_field in Fu. unfold documentFromJSON, omap. cbn [getAsObject]. rewrite Fu. now apply read_file.
Qed.
Lemma read_at j f p : says_at j f p -> positionParams j = Some (f, p).
Proof.
  intros (o & d & q & -> & Fd & Sd & Fq & Sq). apply get_field in Fd, Fq. unfold positionParams, omap. cbn [getAsObject].
  rewrite Fd, (read_document _ _ Sd), Fq, (read_position _ _ Sq). reflexivity.
Qed.
Lemma read_rename j f p n : says_rename j f p n -> renameParams j = Some (f, p, n).
Proof.
  intros [(o & d & q & -> & Fd & Sd & Fq & Sq) (o' & t & E & Ft & ->)]. injection E as <-. apply get_field in Fd, Fq, Ft.
  unfold renameParams, omap. cbn [getAsObject]. rewrite Fd, (read_document _ _ Sd), Fq, (read_position _ _ Sq), Ft. reflexivity.
Qed.
Lemma read_maybe {A} o k (says : json -> A -> Prop) r x :
  (forall j a, says j a -> j <> JNull /\ r j = Some a) -> says_maybe o k says x -> omapO k r o = Some x.
Proof.
  intros H S. unfold omapO. destruct x as [a|]; cbn in S.
  - destruct S as (v & F & Sv). apply get_field in F. rewrite F. destruct (H v a Sv) as [N R]. unfold fromOptional. rewrite R.
    destruct v; try reflexivity. now destruct N.
  - destruct S as [G|F]; [apply get_absent in G; now rewrite G|apply get_field in F; now rewrite F].
Qed.
Lemma read_open j f v t : says_open j f v t -> didOpenParams j = Some (f, Some v, t).
Proof.
  intros (o & d & i & u & l & w & x & -> & Fd & -> & Fu & Su & Fl & Fw & Sw & Fx & ->). apply get_field in Fd, Fu, Fl, Fw, Fx.
  unfold didOpenParams, omap. cbn [getAsObject]. rewrite Fd. unfold itemParams, omap, omapO. cbn [getAsObject].
  rewrite Fu, (read_file _ _ Su), Fl, Fw, Fx. destruct Sw as [-> | ->]; reflexivity.
Qed.
Lemma read_change j c : says_change j c -> changeFromJSON j = Some c.
Proof.
  intros (o & t & -> & Sr & Sn & Ft & ->). apply get_field in Ft. unfold changeFromJSON. cbn [getAsObject].
  rewrite (read_maybe _ _ _ rangeFromJSON (c_range c)) with (2 := Sr).
  2:{ intros j a H. split; [destruct H as (? & ? & ? & -> & _); discriminate|now apply read_range]. }
  rewrite (read_maybe _ _ _ fromInt (c_rangeLength c)) with (2 := Sn).
  - unfold omap. rewrite Ft. now destruct c.
  - intros j a [S B]. split; [destruct S as [-> | ->]; discriminate|]. unfold fromInt.
    replace (getAsInteger j) with (Some a) by (destruct S as [-> | ->]; reflexivity). cbn [option_map]. f_equal. apply to_int_id. unfold is_int. lia.
Qed.
Lemma read_list {A} (says : json -> A -> Prop) r l xs : (forall j a, says j a -> r j = Some a) -> Forall2 says l xs ->
  fromVector r (JArray l) = Some xs.
Proof. intros H F. cbn [fromVector]. induction F as [|j a l xs S F IH]; cbn [fromElements]; [reflexivity|]. now rewrite (H _ _ S), IH. Qed.
Lemma read_changes j f v cs : says_changes j f v cs -> didChangeParams j = Some (f, Some v, cs).
Proof.
  intros (o & d & i & u & w & l & -> & Fd & -> & Fu & Su & Fw & Sw & Fl & Sl & Aw & Af). apply get_field in Fd, Fu, Fw, Fl.
  apply get_absent in Aw, Af. unfold didChangeParams. cbn [getAsObject]. unfold omap at 1. rewrite Fd. unfold versionedFromJSON. cbn [getAsObject].
  unfold omap at 1. rewrite Fu, (read_file _ _ Su). unfold omapO at 1. rewrite Fw.
  replace (fromOptional fromInt64 w) with (Some (Some v)) by (destruct Sw as [-> | ->]; reflexivity).
  unfold omap. rewrite Fl, (read_list _ _ _ _ read_change Sl). unfold omapO, mapOptOrNull. rewrite Aw, Af. reflexivity.
Qed.
Lemma read_may_have {A} o k (P : json -> Prop) (r : json -> option A) old :
  (forall v, P v -> exists a, r v = Some a) -> may_have o k P -> exists a, mapOptOrNull k r old o = Some a.
Proof.
  intros H [G|[F|(v & F & N & S)]]; unfold mapOptOrNull.
  - apply get_absent in G. rewrite G. eauto.
  - apply get_field in F. rewrite F. eauto.
  - apply get_field in F. rewrite F. destruct (H v S) as [a E]. exists a. destruct v; try exact E. now destruct N.
Qed.
Lemma read_diagnostic j d : says_diagnostic is_text_code j d -> diagnosticFromJSON j = Some d.
Proof.
  intros (o & r & m & -> & Fr & Sr & Fm & -> & Hs & Hc & Hw & Ha). apply get_field in Fr, Fm. apply get_absent in Ha.
  unfold diagnosticFromJSON, omap. cbn [getAsObject]. rewrite Fr, (read_range _ _ Sr), Fm. cbn [fromString].
  edestruct (fun H => read_may_have o "severity" _ fromInt 0%Z H Hs) as [s ->].
  { intros v (z & [-> | ->]); eexists; reflexivity. }
  edestruct (fun H => read_may_have o "code" _ fromString [] H Hc) as [k ->].
  { intros v (z & ->); eexists; reflexivity. }
  edestruct (fun H => read_may_have o "source" _ fromString [] H Hw) as [w ->].
  { intros v (z & ->); eexists; reflexivity. }
  unfold mapOptOrNull. rewrite Ha. now destruct d.
Qed.
Lemma read_codeAction j f r ds kinds : says_codeAction is_text_code j f r ds kinds -> codeActionParams j = Some (f, r, (ds, kinds)).
Proof.
  intros (o & d & q & x & c & l & -> & Fd & Sd & Fq & Sq & Fx & -> & Fl & Sl & K). apply get_field in Fd, Fq, Fx, Fl.
  unfold codeActionParams, omap at 1 2 3. cbn [getAsObject]. rewrite Fd, (read_document _ _ Sd), Fq, (read_range _ _ Sq), Fx.
  unfold contextFromJSON. cbn [getAsObject]. unfold omap at 1. rewrite Fl, (read_list _ _ _ _ read_diagnostic Sl). unfold omap.
  destruct K as [[-> A]|(v & F & js & -> & S)].
  - apply get_absent in A. now rewrite A.
  - apply get_field in F. rewrite F, (read_list says_text fromString js kinds); [reflexivity| |exact S]. now intros ? ? ->.
Qed.

Lemma read_text_edit j e : says_edit j e -> j <> JNull /\ textEditFromJSON j = Some e.
Proof.
  intros (o & -> & (r & Fr & Sr) & (t & Ft & ->) & A). split; [discriminate|]. apply get_field in Fr, Ft.
  unfold textEditFromJSON. cbn [getAsObject]. unfold omap. rewrite Fr, (read_range _ _ Sr), Ft. cbn [fromString].
  unfold omapOptional. destruct e as [er et ea]. cbn [te_range te_text te_annotation] in *.
  destruct A as [[-> A]|F]; [apply get_absent in A; now rewrite A|apply get_field in F; now rewrite F].
Qed.
Lemma read_texts o k s : says_texts o k s -> omapOptional k fromString [] o = Some s.
Proof. intros [[-> A]|F]; unfold omapOptional; [apply get_absent in A; now rewrite A|apply get_field in F; now rewrite F]. Qed.
Lemma read_int o k z : z <> 0%Z -> is_int z -> says_int o k z -> exists v, get (b k) o = Some v /\ fromInt v = Some z.
Proof.
  intros N I [[E _]|(v & F & S)]; [congruence|]. exists v. split; [now apply get_field|]. apply read_number in S. unfold fromInt64 in S.
  unfold fromInt. rewrite S. cbn [option_map]. now rewrite to_int_id.
Qed.
Lemma read_markup j m : says_markup j m -> j <> JNull /\ markupFromJSON j = Ok (Some m).
Proof.
  intros (o & -> & (k & Fk & ->) & (t & Ft & ->)). split; [discriminate|]. apply get_field in Fk, Ft. unfold markupFromJSON. cbn [getAsObject].
  unfold omap, omapOptional. rewrite Fk, Ft. destruct m as [[|] t]; reflexivity.
Qed.
Lemma read_item j i : plain_item i -> says_item j i -> itemFromJSON j = Ok (Some i).
Proof.
  destruct i as [lb kd de dc so fi it fm te ad dp dt].
  intros (Hl & Ht & [Hk Ik] & [Hf If] & Hd & He & Ha & Hp) (o & -> & (l & Fl & ->) & Sk & Sde & Sdc & Sso & Sfi & Sit & Sfm & Ste & Sad & _ & (d & Fd & ->)).
  cbn [ci_label ci_kind ci_detail ci_documentation ci_sortText ci_filterText ci_insertText ci_format ci_textEdit ci_additional ci_deprecated ci_data] in *.
  subst dp. apply get_field in Fl, Fd. destruct (read_int _ _ _ Hk Ik Sk) as (vk & Gk & Rk). destruct (read_int _ _ _ Hf If Sfm) as (vf & Gf & Rf).
  assert (Doc : match get (b "documentation") o with
                | None | Some JNull => Ok (Some None)
                | Some m => let* r := markupFromJSON m in Ok (option_map Some r)
                end = Ok (Some dc)).
  { destruct dc as [m|]; cbn [says_maybe] in Sdc.
    - destruct Sdc as (v & F & S). apply get_field in F. rewrite F. destruct (read_markup _ _ S) as [N R]. rewrite R. destruct v; try reflexivity. now destruct N.
    - destruct Sdc as [G|F]; [apply get_absent in G; now rewrite G|apply get_field in F; now rewrite F]. }
  assert (Edit : omapOptional "textEdit" (fromOptional textEditFromJSON) None o = Some te).
  { pose proof (read_maybe o "textEdit" says_edit textEditFromJSON te read_text_edit Ste) as Q. exact Q. }
  assert (Add : omapOptional "additionalTextEdits" (fromVector textEditFromJSON) [] o = Some ad).
  { unfold omapOptional. destruct Sad as [[-> A]|(v & F & js & -> & S)]; [apply get_absent in A; now rewrite A|].
    apply get_field in F. rewrite F. apply (read_list says_edit); [|exact S]. intros x a X. now apply read_text_edit. }
  assert (Data : omapOptional "data" fromString [] o = Some dt) by (unfold omapOptional; now rewrite Fd).
  assert (Fmt : omapOptional "insertTextFormat" fromInt kd o = Some fm) by (unfold omapOptional; now rewrite Gf).
  assert (Lab : omap "label" fromString o = Some lb) by (unfold omap; now rewrite Fl).
  unfold itemFromJSON. cbn [getAsObject]. rewrite Gk, Rk, Fmt, Lab, (read_texts _ _ _ Sde), Doc. cbn [bind].
  now rewrite (read_texts _ _ _ Sso), (read_texts _ _ _ Sfi), (read_texts _ _ _ Sit), Edit, Add, Data.
Qed.
Lemma jfields_total l : (forall k v, In (k, v) l -> exists j, v = Ok j) -> exists o, jfields l = Ok o.
Proof.
  induction l as [|[k v] l IH]; intro H; cbn [jfields]; [now eexists|]. destruct (H k v (or_introl eq_refl)) as (j & ->).
  destruct IH as (o & ->); [intros k' v' I; apply (H k' v'); now right|]. cbn [bind]. now eexists.
Qed.
Lemma sent_item i : plain_item i -> exists j, itemToJSON i = Ok j.
Proof.
  destruct i as [lb kd de dc so fi it fm te ad dp dt].
  intros (Hl & Ht & _ & _ & Hd & He & Ha & Hp). unfold itemToJSON.
  cbn [ci_label ci_kind ci_detail ci_documentation ci_sortText ci_filterText ci_insertText ci_format ci_textEdit ci_additional ci_deprecated ci_data] in *.
  assert (TX : forall s, is_text s -> exists j, jstring s = Ok j) by (intros s Q; destruct (rt_string s Q) as (js & Es & _); now exists js).
  assert (Lb : exists j, jstring lb = Ok j) by (apply TX, Ht; cbn; tauto). assert (De : exists j, jstring de = Ok j) by (apply TX, Ht; cbn; tauto).
  assert (So : exists j, jstring so = Ok j) by (apply TX, Ht; cbn; tauto). assert (Fi : exists j, jstring fi = Ok j) by (apply TX, Ht; cbn; tauto).
  assert (It : exists j, jstring it = Ok j) by (apply TX, Ht; cbn; tauto). assert (Dt : exists j, jstring dt = Ok j) by (apply TX, Ht; cbn; tauto).
  assert (X : forall l, (forall k v, In (k, v) l -> exists j, v = Ok j) -> exists j, jobject l = Ok j).
  { intros l Q. unfold jobject. destruct (jfields_total l Q) as (o & ->). now eexists. }
  destruct lb as [|lc lb]; [congruence|]. apply X. intros k v I.
  assert (JT : forall q s, (exists j, jstring s = Ok j) -> In (k, v) (jtext q s) -> exists j, v = Ok j).
  { intros q s Q I'. unfold jtext in I'. destruct s; [destruct I'|]. destruct I' as [[= <- <-]|[]]. exact Q. }
  assert (JN : forall q z, In (k, v) (jnumber q z) -> exists j, v = Ok j).
  { intros q z I'. unfold jnumber in I'. destruct (Z.eqb z 0); [destruct I'|]. destruct I' as [[= <- <-]|[]]. now eexists. }
  repeat (apply in_app_or in I; destruct I as [I|I]); try (now apply JN in I); try (now eapply JT in I; eauto).
  - destruct I as [[= <- <-]|[]]. exact Lb.
  - destruct dc as [m|]; [|destruct I]. destruct I as [[= <- <-]|[]]. destruct (Hd m eq_refl) as [Nm Tm]. destruct m as [md t]. cbn [snd] in *.
    destruct (TX t Tm) as (jt & Et). unfold markupToJSON. cbn [fst snd]. destruct t as [|c t]; [congruence|].
    apply X. intros k0 v0 [[= <- <-]|[[= <- <-]|[]]]; [destruct md; now eexists|now exists jt].
  - destruct te as [e|]; [|destruct I]. destruct I as [[= <- <-]|[]]. destruct (rt_textEdit e (He e eq_refl)) as (je & Ee & _). now exists je.
  - assert (exists j, jvector textEditToJSON ad = Ok j) as Q by (destruct (rt_edits ad Ha) as (je & Ee & _); now exists je).
    destruct ad; [destruct I|]. destruct I as [[= <- <-]|[]]. exact Q.
  - subst dp. destruct I.
  - destruct I as [[= <- <-]|[[= <- <-]|[]]]; [now eexists|exact Dt].
Qed.
Lemma kept_item client parse i : plain_item i -> ci_data i = [] ->
  exists j, itemToJSON i = Ok j /\ says_item j i /\ onCompletionItemResolve client parse j = Ok (Answered j None).
Proof.
  intros P D. destruct (sent_item i P) as (j & E). exists j. split; [exact E|].
  assert (S : says_item j i) by (refine (told_item i _ j E); apply P). split; [exact S|].
  unfold onCompletionItemResolve. rewrite (read_item j i P S). cbn [bind]. rewrite D, E. reflexivity.
Qed.

(** ** C89 *)
Lemma read_folding width r : p_char (l_start r) <> 0%Z -> p_char (l_end r) <> 0%Z ->
  exists j, foldingToJSON r = Ok j /\ forall s e, reads_folding width j s e <-> s = l_start r /\ e = l_end r.
Proof.
  destruct r as [[l c] [l' c']]. cbn [l_start l_end p_char p_line]. intros H H'.
  unfold foldingToJSON, jobject, jnumber. cbn [l_start l_end p_char p_line].
  apply Z.eqb_neq in H, H'. rewrite H, H'. cbn [app jfields bind]. eexists. split; [reflexivity|].
  assert (N : forall v z z', v = JInt z -> says_number v z' -> z' = z) by (intros v z z' -> [[= ->]|E]; [reflexivity|discriminate]).
  intros [sl sc] [el ec]. split.
  2: { intros [[= -> ->] [= -> ->]]. do 3 eexists. split; [reflexivity|]. cbn [p_line p_char].
       split; [apply get_field; reflexivity|]. split; [now left|]. split; [left; eexists; split; [apply get_field; reflexivity|now left]|].
       split; [apply get_field; reflexivity|]. split; [now left|]. left; eexists; split; [apply get_field; reflexivity|now left]. }
  intros (o & x & y & E & Fx & Nx & Rs & Fy & Ny & Re). injection E as <-. cbn [p_line p_char] in *.
  apply get_field in Fx, Fy. cbn in Fx, Fy. injection Fx as <-. injection Fy as <-.
  apply (N _ l) in Nx; [|reflexivity]. apply (N _ l') in Ny; [|reflexivity].
  assert (sc = c) as ->.
  { destruct Rs as [(v & F & S)|[A _]].
    - apply get_field in F. cbn in F. injection F as <-. exact (N _ _ _ eq_refl S).
    - apply get_absent in A. cbn in A. discriminate A. }
  assert (ec = c') as ->.
  { destruct Re as [(v & F & S)|[A _]].
    - apply get_field in F. cbn in F. injection F as <-. exact (N _ _ _ eq_refl S).
    - apply get_absent in A. cbn in A. discriminate A. }
  split; f_equal; assumption.
Qed.

(** ** C90 *)
Lemma inserted_name s t k : no_special s -> ~ In "}"%char s -> inserted Plain k (s ++ t) = s ++ inserted Plain k t.
Proof.
  induction s as [|c s IH]; intros [N M] B; [reflexivity|]. cbn [app inserted].
  destruct (Ascii.eqb c "\") eqn:E1; [apply Ascii.eqb_eq in E1; subst; destruct N; now left|].
  destruct (Ascii.eqb c "$") eqn:E2; [apply Ascii.eqb_eq in E2; subst; destruct M; now left|].
  destruct (Ascii.eqb c "}") eqn:E3; [apply Ascii.eqb_eq in E3; subst; destruct B; now left|].
  rewrite IH; [reflexivity| |].
  - split; intro I; [apply N|apply M]; now right.
  - intro I. apply B. now right.
Qed.
Lemma inserted_name0 s t : no_special s -> inserted Plain 0 (s ++ t) = s ++ inserted Plain 0 t.
Proof.
  induction s as [|c s IH]; intros [N M]; [reflexivity|]. cbn [app inserted].
  destruct (Ascii.eqb c "\") eqn:E1; [apply Ascii.eqb_eq in E1; subst; destruct N; now left|].
  destruct (Ascii.eqb c "$") eqn:E2; [apply Ascii.eqb_eq in E2; subst; destruct M; now left|].
  assert (H : no_special s) by (split; intro I; [apply N|apply M]; now right).
  destruct (Ascii.eqb c "}"); now rewrite IH.
Qed.
Lemma escape_cons c s : escapeCharacters ["\"; "$"; "}"]%char (c :: s) =
  (if special c then ["\"%char; c] else [c]) ++ escapeCharacters ["\"; "$"; "}"]%char s.
Proof. unfold special. rewrite <- orb_assoc. rewrite <- (orb_false_r (Ascii.eqb c "}")). reflexivity. Qed.
Lemma inserted_escaped s t k : inserted Plain k (escapeCharacters ["\"; "$"; "}"]%char s ++ t) = s ++ inserted Plain k t.
Proof.
  induction s as [|c s IH]; [reflexivity|]. rewrite escape_cons. rewrite <- app_assoc.
  set (e := escapeCharacters ["\"; "$"; "}"]%char s) in *. clearbody e. destruct (special c) eqn:E.
  - cbn [app inserted]. change (Ascii.eqb "\" "\") with true. cbn iota. now rewrite E, IH.
  - unfold special in E. apply orb_false_iff in E as [E E3]. apply orb_false_iff in E as [E1 E2].
    cbn [app inserted]. now rewrite E1, E2, E3, IH.
Qed.
Lemma inserted_option name value : no_special name ->
  inserted Plain 0 (snd (fillInsertText true name value)) = name ++ b " = " ++ value ++ b ";".
Proof.
  intro H. cbn [fillInsertText snd]. rewrite inserted_name0 by exact H. f_equal.
  change (inserted Plain 0 (b " = " ++ b "${1:" ++ escapeCharacters ["\"; "$"; "}"]%char value ++ b "}" ++ b ";"))
    with (b " = " ++ inserted Plain 1 (escapeCharacters ["\"; "$"; "}"]%char value ++ b "}" ++ b ";")).
  f_equal. rewrite inserted_escaped. reflexivity.
Qed.
