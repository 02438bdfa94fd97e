(** Every variable of an accepted document is visited by the analysis of names. *)
From Verif Require Import Base Diag LexModel AstModel PSupModel SemaModel ParseModel ParseSpec ParseTree ParseFacts IdTree IdStep IdProofs DocSpec DocProofs GramSpec GramSub GramFacts VlaModel VlaSpec SeenBase.

Lemma in_somes l (c : node) : In (Some c) l -> In c (somes l).
Proof. intros I. unfold somes. apply in_flat_map. exists (Some c). split; [exact I|now left]. Qed.
Definition reach (w v : node) : Prop := forall s, exists s', visit s w s' v.
Lemma reach_self v : reach v v.
Proof. intros s. exists s. constructor. Qed.
Lemma reach_in n c v : (forall s, exists s1, In (s1, c) (enters s n)) -> reach c v -> reach n v.
Proof. intros E R s. destruct (E s) as (s1 & I). destruct (R s1) as (s' & V). exists s'. eapply visit_in; eauto. Qed.

Lemma set_static out inn st dy x a : In (x, a) st -> exists s1, In (s1, a_value a) (in_set out inn st dy).
Proof. intros I. eexists. unfold in_set. apply in_or_app. left. apply in_map_iff. exists (x, a). split; [reflexivity|exact I]. Qed.
Lemma set_key out inn st dy a : In a dy -> exists s1, In (s1, a_key a) (in_set out inn st dy).
Proof. intros I. exists inn. unfold in_set. apply in_or_app. right. apply in_flat_map. exists a. split; [exact I|now left]. Qed.
Lemma set_value out inn st dy a : In a dy -> exists s1, In (s1, a_value a) (in_set out inn st dy).
Proof. intros I. exists inn. unfold in_set. apply in_or_app. right. apply in_flat_map. exists a. split; [exact I|right; now left]. Qed.
Lemma attrs_enters n sa : attrs_sema n = Some sa -> forall s, exists out inn, enters s n = in_set out inn (sa_static sa) (sa_dynamic sa).
Proof. destruct n; try discriminate. intros [= <-] s. cbn [enters sa_static sa_dynamic]. destruct rc; eauto. Qed.
Lemma seen_reach n w v : seen n w -> reach w v -> reach n v.
Proof.
  intros S R. induction S as [n E|n sa x a w E I S IH|n sa a E I|n sa a w E I S IH]; auto.
  - apply (reach_in n (a_value a)); auto. intros s. destruct (attrs_enters _ _ E s) as (o & i & ->). eapply set_static; eauto.
  - apply (reach_in n (a_key a)); auto. intros s. destruct (attrs_enters _ _ E s) as (o & i & ->). eapply set_key; eauto.
  - apply (reach_in n (a_value a)); auto. intros s. destruct (attrs_enters _ _ E s) as (o & i & ->). eapply set_value; eauto.
Qed.
(** what is in the set of a node is reached from any node that opens the set *)
Lemma insa_reach n sa w v : (forall s, exists out inn, incl (in_set out inn (sa_static sa) (sa_dynamic sa)) (enters s n)) ->
  insa sa w -> reach w v -> reach n v.
Proof.
  intros E [(x & a & I & S)|(a & I & [-> |S])] R.
  - apply (reach_in n (a_value a)); [|eapply seen_reach; eauto]. intros s. destruct (E s) as (o & i & L). destruct (set_static o i _ (sa_dynamic sa) _ _ I) as (s1 & J). eauto.
  - apply (reach_in n (a_key a)); [|auto]. intros s. destruct (E s) as (o & i & L). destruct (set_key o i (sa_static sa) _ _ I) as (s1 & J). eauto.
  - apply (reach_in n (a_value a)); [|eapply seen_reach; eauto]. intros s. destruct (E s) as (o & i & L). destruct (set_value o i (sa_static sa) _ _ I) as (s1 & J). eauto.
Qed.

Definition var (v : node) : Prop := kind_of v = NK_ExprVar.

Section Doc.
Variables (src : bytes) (root : node) (ds : list diag).
Hypothesis HP : parse src = Ok (Some root, ds).
Hypothesis HE : no_errors ds.
Hypothesis HI : forall i r e, ~ within root (NInherit i r [] (Some e)).

Definition here (n : node) : Prop := node_of root n /\ within root n.
Lemma within_trans a c d : within a c -> within c d -> within a d.
Proof. induction 1; auto. intros. eapply within_part; eauto. Qed.
Definition odd_formal (n : node) : bool := match n with NFormal _ _ _ (Some _) _ (Some _) | NFormal _ _ _ _ (Some _) (Some _) => true | _ => false end.
Lemma somes_app l m : somes (l ++ m) = somes l ++ somes m.
Proof. unfold somes. apply flat_map_app. Qed.
Lemma somes_map l : somes (map Some l) = l.
Proof. induction l as [|x l IH]; [reflexivity|]. change (somes (map Some (x :: l))) with (x :: somes (map Some l)). now rewrite IH. Qed.
Lemma parts_somes n c : odd_formal n = false -> In c (parts_of n) -> In c (somes (children n)).
Proof.
  destruct n; cbn [parts_of children odd_formal]; intros O I; try (destruct I; fail); rewrite ?somes_app, ?somes_map; try exact I.
  all: repeat match goal with o : option node |- _ => destruct o end; cbn in *; try discriminate O; rewrite ?somes_app, ?somes_map; try tauto; try (apply in_app_iff in I; apply in_or_app; cbn in *; tauto).
  apply in_or_app. auto.
Qed.
Lemma somes_present l : somes l = present l.
Proof. reflexivity. Qed.
Lemma here_part n c : here n -> odd_formal n = false -> In c (parts_of n) -> here c.
Proof.
  intros [N W] O I. split.
  - eapply node_trans; [exact N|]. eapply node_child; [|apply node_self]. rewrite <- somes_present. now apply parts_somes.
  - eapply within_trans; [exact W|]. eapply within_part; [exact I|constructor].
Qed.

Definition claim (n : node) : Prop := here n -> forall v, within n v -> var v -> exists w, seen n w /\ reach w v.
Lemma claim_reach n v : claim n -> here n -> within n v -> var v -> reach n v.
Proof. intros C H W K. destruct (C H v W K) as (w & S & R). eapply seen_reach; eauto. Qed.
Definition plain (n : node) : bool :=
  match n with NVar _ _ _ | NLambda _ _ _ _ | NAttrs _ _ _ _ _ _ | NLet _ _ _ _ _ _ | NLegacyLet _ _ _ _ | NFormal _ _ _ _ _ _ => false | _ => true end.
Lemma plain_enters n c s : plain n = true -> In c (parts_of n) -> exists s1, In (s1, c) (enters s n).
Proof.
  intros Hp I. assert (O : odd_formal n = false) by (destruct n; try reflexivity; discriminate Hp).
  pose proof (parts_somes n c O I) as J.
  destruct n; try discriminate Hp; try (exists s; cbn [enters]; apply in_map_iff; exists c; split; [reflexivity|exact J]).
  cbn [parts_of] in I. apply in_app_iff in I as [I|I].
  - match goal with |- context [enters s (NWith _ _ _ _ ?w _)] => destruct w; [|destruct I] end. destruct I as [<-|[]]. exists s. cbn. now left.
  - match goal with |- context [enters s (NWith _ _ _ _ ?w ?e)] => destruct e; [|destruct I] end. destruct I as [<-|[]]. eexists. cbn [enters]. apply in_or_app. right. now left.
Qed.
Lemma gen n : plain n = true -> (forall c, In c (parts_of n) -> claim c) -> claim n.
Proof.
  intros Hp C Hh v W K. assert (O : odd_formal n = false) by (destruct n; try reflexivity; discriminate Hp).
  assert (A : attrs_sema n = None) by (destruct n; try reflexivity; discriminate Hp).
  exists n. split; [now constructor|]. apply within_inv in W as [<-|(c & I & W)]; [apply reach_self|].
  apply (reach_in n c); [intros s; now apply plain_enters|]. apply claim_reach; auto. eapply here_part; eauto.
Qed.
Lemma leaf n : parts_of n = [] -> plain n = true -> claim n.
Proof. intros E Hp. apply gen; auto. rewrite E. intros c []. Qed.
Lemma var_claim i r ii ri x : claim (NVar i r (NIdent ii ri x)).
Proof.
  intros Hh v W K. eexists. split; [now constructor|]. apply within_inv in W as [<-|(c & I & W)]; [apply reach_self|].
  cbn in I. destruct I as [<-|[]]. apply within_leaf in W; [|reflexivity]. subst v. discriminate K.
Qed.

Definition bclaim (q : node) : Prop :=
  match q with
  | NBinding _ _ p v _ => (exists i r ns d, p = NAttrPath i r ns d /\ Forall claim ns) /\ exists e, v = Some e /\ claim e
  | NInherit _ _ ns e => forall ex, e = Some ex -> claim ex
  | _ => False
  end.
Definition boclaim (o : option node) : Prop :=
  match o with None => True | Some (NBinds _ _ bs) => Forall bclaim bs | _ => False end.

Lemma static_novar n x v : staticName n = Some x -> within n v -> var v -> False.
Proof.
  destruct n; try discriminate. cbn [staticName]. match goal with |- match ?m with _ => _ end = _ -> _ => destruct m; try discriminate end.
  - intros _ W K. apply within_inv in W as [<-|(c & [<-|[]] & W)]; [discriminate K|]. apply within_leaf in W; [|reflexivity]. subst v. discriminate K.
  - match goal with |- parts_literal ?p = _ -> _ => destruct p; try discriminate end. intros L W K.
    assert (NI : interps frags = []).
    { revert L. cbn. destruct frags as [|[t|m] [|? ?]]; try discriminate; reflexivity. }
    apply within_inv in W as [<-|(c & [<-|[]] & W)]; [discriminate K|]. apply within_inv in W as [<-|(c & [<-|[]] & W)]; [discriminate K|].
    apply within_leaf in W; [|cbn [parts_of]; exact NI]. subst v. discriminate K.
Qed.

Lemma quiet_news news s s' : diags (plex s') = rev news ++ diags (plex s) -> in_a_row news ds -> cnt s' = cnt s.
Proof.
  intros D R. unfold cnt. rewrite D, filter_app, app_length. replace (filter bad (rev news)) with (@nil diag); [reflexivity|].
  symmetry. assert (F : forall d, In d (rev news) -> bad d = false).
  { intros d I. apply in_rev in I. apply (in_row ds d) in R; auto. apply HE in R as [R _]. unfold bad. destruct (d_kind d); try reflexivity; now elim R. }
  clear - F. induction (rev news) as [|d l IH]; [reflexivity|]. cbn [filter]. rewrite (F d (or_introl eq_refl)). apply IH. intros e I. apply F. now right.
Qed.
Lemma set_claim i r bd rc st dy : boclaim bd -> here (NAttrs i r bd rc st dy) -> forall v, within (NAttrs i r bd rc st dy) v -> var v ->
  exists w, insa (SA st dy) w /\ reach w v.
Proof.
  intros B Hh v W K. destruct (doc_action src root ds HP _ _ _ _ _ _ (proj1 Hh)) as (s & s' & news & A & D & R & _).
  pose proof (quiet_news _ _ _ D R) as Q. unfold onExprAttrs in A. pb A sa s1 L. pb A j s2 F. apply ret_ok in A as [A ->].
  injection A as _ Est Edy. apply fresh_ok in F. apply binds_keep in L as [_ L]. destruct L as [_ L]; [lia|].
  assert (Esa : SA st dy = sa) by (destruct sa; cbn in *; congruence). rewrite Esa. clear Esa Est Edy.
  apply within_inv in W as [<-|(c & I & W)]; [discriminate K|]. pose proof (here_part _ _ Hh eq_refl I) as Hc.
  destruct bd as [bn|]; [|destruct I]. destruct I as [->|[]]. destruct c; try (destruct B; fail). cbn [boclaim binds_list] in B, L.
  apply within_inv in W as [<-|(q & I & W)]; [discriminate K|]. pose proof (here_part _ _ Hc eq_refl I) as Hq. cbn [parts_of] in I.
  rewrite Forall_forall in B, L. specialize (B _ I). specialize (L _ I).
  apply within_inv in W as [<-|(p & J & W)]; [destruct q; try destruct B; discriminate K|].
  destruct q; try (destruct B; fail).
  - destruct B as [(ip & rp & ns & dd & -> & Bn) (e & -> & Be)]. cbn [bound_in path_names] in L. destruct L as [L1 L2].
    pose proof (here_part _ _ Hq eq_refl J) as Hpp. cbn [parts_of opt_list] in J. destruct J as [<-|[<-|[]]].
    + apply within_inv in W as [<-|(n & J & W)]; [discriminate K|]. pose proof (here_part _ _ Hpp eq_refl J) as Hn. cbn [parts_of] in J.
      rewrite Forall_forall in Bn. destruct (staticName n) as [x|] eqn:Sn; [destruct (static_novar _ _ _ Sn W K)|].
      exists n. split; [now apply L2|]. apply claim_reach; auto.
    + destruct (Be Hpp v W K) as (w & S & Rw). exists w. auto.
  - cbn [bound_in] in L. destruct L as [L1 L2]. pose proof (here_part _ _ Hq eq_refl J) as Hpp. cbn [parts_of] in J. apply in_app_iff in J as [J|J].
    + destruct (staticName p) as [x|] eqn:Sn; [destruct (static_novar _ _ _ Sn W K)|]. destruct (L1 _ J Sn).
    + destruct e as [ex|]; [|destruct J]. destruct J as [<-|[]].
      assert (NN : names <> []). { intros ->. destruct Hq as [_ Hq]. now apply HI in Hq. }
      destruct (L2 _ eq_refl NN) as (i' & r' & d' & p' & o' & L3). eexists. split; [exact L3|].
      eapply (reach_in _ ex). { intros s3. exists s3. cbn. now left. } apply claim_reach; auto.
Qed.
Lemma attrs_claim i r bd rc st dy : boclaim bd -> claim (NAttrs i r bd rc st dy).
Proof.
  intros B Hh v W K. destruct (set_claim _ _ _ _ _ _ B Hh v W K) as (w & S & R). exists w. split; auto.
  apply (seen_set (NAttrs i r bd rc st dy) (SA st dy)); [reflexivity|exact S].
Qed.

Definition fclaim (f : node) : Prop :=
  exists i r c id d el, f = NFormal i r c id d el /\ (id = None \/ exists j t x, id = Some (NIdent j t x)) /\
    (d = None \/ exists e, d = Some e /\ claim e) /\ (el = None \/ (id = None /\ d = None)).
Definition fsclaim (f : node) : Prop := exists i r ms d, f = NFormals i r ms d /\ Forall fclaim ms.
Definition aclaim (a : node) : Prop :=
  exists i r id fs, a = NLambdaArg i r id fs /\ (id = None \/ exists j t x, id = Some (NIdent j t x)) /\
    (fs = None \/ exists f, fs = Some f /\ fsclaim f).
Lemma arg_var a v : aclaim a -> here a -> within a v -> var v -> exists e, In e (defaults a) /\ claim e /\ here e /\ within e v.
Proof.
  intros (i & r & id & fs & -> & Hid & Hfs) Hh W K. apply within_inv in W as [<-|(c & I & W)]; [discriminate K|].
  pose proof (here_part _ _ Hh eq_refl I) as Hc. cbn [parts_of] in I. apply in_app_iff in I as [I|I].
  - destruct Hid as [->|(j & t & x & ->)]; [destruct I|]. destruct I as [<-|[]]. apply within_leaf in W; [|reflexivity]. subst v. discriminate K.
  - destruct Hfs as [->|(f & -> & (i2 & r2 & ms & d2 & -> & F))]; [destruct I|]. destruct I as [<-|[]].
    apply within_inv in W as [<-|(f & I & W)]; [discriminate K|]. pose proof (here_part _ _ Hc eq_refl I) as Hf. cbn [parts_of] in I.
    rewrite Forall_forall in F. destruct (F _ I) as (i3 & r3 & c3 & id3 & d & el & -> & Hid3 & Hd & Hel).
    apply within_inv in W as [<-|(e & J & W)]; [discriminate K|].
    assert (O : odd_formal (NFormal i3 r3 c3 id3 d el) = false) by (destruct Hel as [->|[-> ->]]; [destruct id3, d|destruct el]; reflexivity).
    pose proof (here_part _ _ Hf O J) as He. cbn [parts_of] in J. apply in_app_iff in J as [J|J].
    + destruct Hid3 as [->|(j & t & x & ->)]; [destruct J|]. destruct J as [<-|[]]. apply within_leaf in W; [|reflexivity]. subst v. discriminate K.
    + destruct Hd as [->|(e' & -> & Ce)]; [destruct J|]. destruct J as [<-|[]]. exists e'. split; auto.
      cbn [defaults]. apply in_flat_map. eexists. split; [exact I|]. now left.
Qed.
Lemma lambda_claim i r a e : aclaim a -> claim e -> claim (NLambda i r (Some a) (Some e)).
Proof.
  intros A C Hh v W K. eexists. split; [now constructor|]. apply within_inv in W as [<-|(c & I & W)]; [apply reach_self|].
  pose proof (here_part _ _ Hh eq_refl I) as Hc. cbn [parts_of opt_list app] in I. destruct I as [<-|[<-|[]]].
  - destruct (arg_var _ _ A Hc W K) as (d & I & Cd & Hd & Wd). apply (reach_in _ d); [|now apply claim_reach].
    intros s. eexists. cbn [enters]. apply in_or_app. left. apply in_map. exact I.
  - apply (reach_in _ e); [|now apply claim_reach]. intros s. eexists. cbn [enters]. apply in_or_app. right. now left.
Qed.
Lemma let_claim i r kl ki e ia ra bs rc st dy : boclaim bs -> claim e -> claim (NLet i r kl ki (Some e) (Some (NAttrs ia ra bs rc st dy))).
Proof.
  intros A C Hh v W K. eexists. split; [now constructor|]. apply within_inv in W as [<-|(c & I & W)]; [apply reach_self|].
  pose proof (here_part _ _ Hh eq_refl I) as Hc. cbn [parts_of opt_list app] in I. destruct I as [<-|[<-|[]]].
  - apply (reach_in _ e); [|now apply claim_reach]. intros s. eexists. cbn [enters]. apply in_or_app. right. now left.
  - destruct (set_claim _ _ _ _ _ _ A Hc v W K) as (w & S & R). eapply insa_reach; [|exact S|exact R].
    intros s. do 2 eexists. cbn [enters sa_static sa_dynamic]. apply incl_appl, incl_refl.
Qed.
Lemma let_none_claim i r kl ki e : claim e -> claim (NLet i r kl ki (Some e) None).
Proof.
  intros C Hh v W K. eexists. split; [now constructor|]. apply within_inv in W as [<-|(c & I & W)]; [apply reach_self|].
  pose proof (here_part _ _ Hh eq_refl I) as Hc. cbn [parts_of opt_list app] in I. destruct I as [<-|[]].
  apply (reach_in _ e); [|now apply claim_reach]. intros s. eexists. cbn. now left.
Qed.
Lemma legacy_claim i r kl ia ra bs rc st dy : boclaim bs -> claim (NLegacyLet i r kl (Some (NAttrs ia ra bs rc st dy))).
Proof.
  intros A Hh v W K. eexists. split; [now constructor|]. apply within_inv in W as [<-|(c & I & W)]; [apply reach_self|].
  pose proof (here_part _ _ Hh eq_refl I) as Hc. cbn [parts_of opt_list app] in I. destruct I as [<-|[]].
  destruct (set_claim _ _ _ _ _ _ A Hc v W K) as (w & S & R). eapply insa_reach; [|exact S|exact R].
  intros s. cbn [enters sa_static sa_dynamic]. destruct rc; do 2 eexists; apply incl_refl.
Qed.

Definition Q (X : sym) : Prop :=
  match X with
  | Expr n | Op n | App n | Sel n | Simple n | Str _ n | Interp _ _ n | Name n => claim n
  | Sels ns | Names ns | AttrPath ns => Forall claim ns
  | Parts _ fs | Frags _ fs => Forall claim (inrs fs)
  | Bind n => bclaim n
  | GramSpec.Binds ns => Forall bclaim ns
  | BindsO o => boclaim o
  | Default o => o = None \/ exists e, o = Some e /\ claim e
  | Formals _ ms => Forall fclaim ms
  | FormalSet f => fsclaim f
  | Arg a => aclaim a
  end.
Ltac unpack := repeat match goal with
  | H : In _ [] |- _ => destruct H
  | H : False |- _ => destruct H
  | H : In _ [_] |- _ => destruct H as [<-|[]]
  | H : In _ (_ :: _) |- _ => destruct H as [<-|H]
  | H : In _ (_ ++ _) |- _ => apply in_app_iff in H as [H|H]
  end.
Ltac parts := apply gen; [reflexivity|cbn [parts_of opt_list app]; intros ?c ?I; repeat match goal with H : Forall _ _ |- _ => rewrite Forall_forall in H end; unpack; auto].
Lemma pathc i r ns d : Forall claim ns -> claim (NAttrPath i r ns d).
Proof. intros F. parts. Qed.
Lemma partsc i r fs : Forall claim (interps fs) -> claim (NParts i r fs).
Proof. intros F. parts. Qed.
Lemma strc i r ip rp fs : Forall claim (inrs (flatten fs)) -> claim (NString i r (NParts ip rp fs)).
Proof. rewrite inrs_flatten. intros F. pose proof (partsc ip rp fs F). apply gen; [reflexivity|]. intros c [<-|[]]; auto. Qed.
Lemma pthc i r ip rp fs : Forall claim (inrs (flatten fs)) -> claim (NPath i r (NParts ip rp fs)).
Proof. rewrite inrs_flatten. intros F. pose proof (partsc ip rp fs F). apply gen; [reflexivity|]. intros c [<-|[]]; auto. Qed.
Lemma gram_claim X its : gram false X its -> Q X.
Proof.
  induction 1; cbn [Q] in *; auto.
  all: try (parts; fail).
  all: try (apply lambda_claim; assumption).
  all: try (apply let_claim; assumption).
  all: try (apply let_none_claim; assumption).
  all: try (apply legacy_claim; assumption).
  all: try (apply attrs_claim; assumption).
  all: try (apply var_claim).
  all: try (apply strc; assumption).
  all: try (apply pthc; assumption).
  all: try (rewrite ?inrs_app, ?inrs_text, ?app_nil_r; try assumption; try apply Forall_app; repeat constructor; assumption).
  all: try (apply Forall_app; split; [assumption|repeat constructor; assumption]).
  all: try (match goal with |- _ \/ _ => right; eauto end).
  all: try (apply gen; [reflexivity|cbn [parts_of opt_list app]; intros ?c ?I; unpack; auto using pathc; fail]).
  all: try (apply gen; [reflexivity|cbn [parts_of opt_list app]; intros ?c ?I; unpack; apply leaf; reflexivity]).
  all: try (unfold fsclaim; do 4 eexists; split; [reflexivity|try apply Forall_app; try split; try assumption; repeat constructor; do 6 eexists; split; [reflexivity|]; eauto 8]).
  all: try (unfold aclaim; do 4 eexists; split; [reflexivity|]; split; eauto 8).
  all: try (try apply Forall_app; try split; try assumption; repeat constructor; do 6 eexists; split; [reflexivity|]; eauto 8; fail).
  all: cbn [bclaim boclaim]; try exact I; try (intros ex [= <-]; assumption); try (intros ex Hx; discriminate Hx).
  - split; [|eauto]. do 4 eexists. split; [reflexivity|assumption].
  - do 4 eexists. split; [reflexivity|assumption].
Qed.
End Doc.

Lemma every_variable src root ds primops v x : parse src = Ok (Some root, ds) -> no_errors ds ->
  (forall i r e, ~ within root (NInherit i r [] (Some e))) -> within root v -> is_var v x ->
  exists s, occurs_at primops root s v x.
Proof.
  intros HP HE HI W [K Ex]. destruct (C68_partial_proof _ _ _ HP HE) as (its & _ & Gr).
  pose proof (gram_claim _ _ _ HP HE HI _ _ Gr) as C. cbn [Q] in C.
  assert (H : here root root) by (split; [apply node_self|apply within_self]).
  destruct (claim_reach root root v C H W K (prelude primops)) as (s & V). exists s. split; [exact V|split; [exact K|exact Ex]].
Qed.
