(** Every variable of an accepted document that is in view has a semantic token. *)
From Coq Require Import Permutation.
From Verif Require Import Base Diag LexModel AstModel PSupModel SemaModel ParseModel ParseSpec ParseTree ParseFacts IdTree IdStep IdProofs DocSpec DocProofs FeatModel FeatSpec FeatProofs GramSpec GramSub GramFacts VlaModel VlaSpec SeenBase SeenProofs ShownBase ShownSpec.

Lemma view_inv n m : in_view n m -> n = m \/ (dim n = false /\ exists c, In c (parts_of n) /\ in_view c m).
Proof. intros H. destruct H; eauto. Qed.
Lemma view_dim n m : dim n = true -> in_view n m -> n = m.
Proof. intros D V. apply view_inv in V as [V|[E _]]; auto. congruence. Qed.
Lemma dim_novar n v : dim n = true -> in_view n v -> var v -> False.
Proof. intros D V K. apply view_dim in V; auto. subst v. destruct n; discriminate. Qed.
Lemma path_novar i r ns d v : Forall (fun n => dim n = true) ns -> in_view (NAttrPath i r ns d) v -> var v -> False.
Proof.
  intros F V K. apply view_inv in V as [<-|(_ & c & I & V)]; [discriminate K|]. rewrite Forall_forall in F. eapply dim_novar; eauto.
Qed.

Section Doc.
Variables (src : bytes) (root : node) (ds : list diag) (s : vst).
Hypothesis HP : parse src = Ok (Some root, ds).
Hypothesis HE : no_errors ds.
Notation tks := (tokens s src).
Notation here := (SeenProofs.here root).

Lemma static_tks i r bd rc st dy x a : In (x, a) st -> a_kind a = AK_Plain -> incl (tks (a_value a)) (tks (NAttrs i r bd rc st dy)).
Proof.
  intros I K t T. cbn [tokens]. apply in_or_app. left. apply in_flat_map. exists (x, a). split; [exact I|].
  destruct a as [[k ky] v]. cbn in *. subst k. apply in_or_app. now right.
Qed.
Lemma dynamic_tks i r bd rc st dy a : In a dy -> incl (tks (a_value a)) (tks (NAttrs i r bd rc st dy)).
Proof.
  intros I t T. cbn [tokens]. apply in_or_app. right. apply in_flat_map. exists a. split; [exact I|]. destruct a as [[k ky] v]. exact T.
Qed.
Lemma shown_tks n w : shown n w -> incl (tks w) (tks n).
Proof.
  induction 1 as [n E|n sa x a w E I K S IH|n sa a w E I S IH]; [apply incl_refl| |]; (eapply incl_tran; [exact IH|]);
    destruct n; try discriminate E; injection E as <-; [eapply static_tks|eapply dynamic_tks]; eauto.
Qed.

Definition oclaim (n : node) : Prop := here n ->
  (forall sa, attrs_sema n = Some sa -> tamed sa) /\
  forall v, in_view n v -> var v -> exists w, shown n w /\ incl (tks v) (tks w).
Lemma oclaim_tks n v : oclaim n -> here n -> in_view n v -> var v -> incl (tks v) (tks n).
Proof. intros C H V K. destruct (C H) as [_ D]. destruct (D v V K) as (w & S & R). eapply incl_tran; [exact R|]. now apply shown_tks. Qed.
Definition flat (n : node) : bool :=
  match n with NVar _ _ _ | NLambda _ _ _ _ | NString _ _ _ | NSelect _ _ _ _ _ _ _ | NAttrs _ _ _ _ _ _ | NFormal _ _ _ _ _ _ => false | _ => true end.
Lemma over_part (f : node -> list rawtok) n c t : flat n = true -> In c (parts_of n) -> In t (f c) -> In t (over_children f n).
Proof.
  intros P I T.
  assert (L : forall l, In c l -> In t (flat_map f l)) by (intros l J; apply in_flat_map; eauto).
  assert (Op : forall o : option node, In c (opt_list o) -> In t (ofor f o)) by (intros [m|] J; [destruct J as [->|[]]; exact T|destruct J]).
  destruct n; try discriminate P; cbn [parts_of over_children] in *; try (destruct I; fail); rewrite ?in_app_iff; rewrite ?in_app_iff in I; auto;
    try (destruct I as [<-|I]; [auto|]; rewrite ?in_app_iff in I); try (destruct I; fail); try tauto.
  all: try (apply in_flat_map; unfold interps in I; apply in_flat_map in I as ([m|m] & I & J); [destruct J|]; destruct J as [->|[]]; exists (inr c); auto; fail).
  all: try (destruct I as [I|[I|I]]; auto 6; fail).
  all: try (destruct I as [I|I]; auto 7; fail).
  all: auto 7.
Qed.
Lemma flat_tks n c : flat n = true -> In c (parts_of n) -> incl (tks c) (tks n).
Proof. intros P I t T. assert (E : tks n = over_children tks n) by (destruct n; try discriminate P; reflexivity). rewrite E. eapply over_part; eauto. Qed.
Lemma self_shown n : attrs_sema n = None -> (forall v, here n -> in_view n v -> var v -> incl (tks v) (tks n)) -> oclaim n.
Proof. intros A H Hh. split; [intros sa E; rewrite A in E; discriminate E|]. intros v V K. exists n. split; [now constructor|auto]. Qed.
Lemma oleaf n : parts_of n = [] -> attrs_sema n = None -> oclaim n.
Proof. intros E A. apply self_shown; auto. intros v _ V K. apply view_inv in V as [<-|(_ & c & I & _)]; [apply incl_refl|]. rewrite E in I. destruct I. Qed.
Lemma dimclaim n : dim n = true -> oclaim n.
Proof. intros D. apply self_shown; [destruct n; try discriminate D; reflexivity|]. intros v _ V K. apply view_dim in V; auto. subst. apply incl_refl. Qed.
Lemma ogen n : flat n = true -> (forall c, In c (parts_of n) -> oclaim c) -> oclaim n.
Proof.
  intros P C. apply self_shown; [destruct n; try discriminate P; reflexivity|]. intros v Hh V K.
  apply view_inv in V as [<-|(_ & c & I & V)]; [apply incl_refl|].
  eapply incl_tran; [|eapply flat_tks; eauto]. apply oclaim_tks; auto. eapply here_part; eauto. destruct n; try reflexivity; discriminate P.
Qed.
Lemma ovar i r ii ri x : oclaim (NVar i r (NIdent ii ri x)).
Proof.
  apply self_shown; [reflexivity|]. intros v _ V K. apply view_inv in V as [<-|(_ & c & I & V)]; [apply incl_refl|].
  destruct I as [<-|[]]. apply view_inv in V as [<-|(_ & c & [] & _)]. discriminate K.
Qed.
Lemma opath i r ns d : Forall (fun n => dim n = true) ns -> oclaim (NAttrPath i r ns d).
Proof. intros F. apply self_shown; [reflexivity|]. intros v _ V K. destruct (path_novar _ _ _ _ _ F V K). Qed.
Lemma oselect i r e dot ip rp ns dd d : oclaim e -> Forall (fun n => dim n = true) ns -> (forall x, d = Some x -> oclaim x) ->
  oclaim (NSelect i r e (Some dot) (Some (NAttrPath ip rp ns dd)) d None).
Proof.
  intros C F D. apply self_shown; [reflexivity|]. intros v Hh V K. apply view_inv in V as [<-|(_ & c & I & V)]; [apply incl_refl|].
  pose proof (here_part _ _ _ Hh eq_refl I) as Hc. cbn [parts_of opt_list app] in I. destruct I as [<-|[<-|I]].
  - intros t T. cbn [tokens]. apply in_or_app. left. revert T. now apply oclaim_tks.
  - destruct (path_novar _ _ _ _ _ F V K).
  - destruct d as [x|]; [|destruct I]. destruct I as [<-|[]]. intros t T. cbn [tokens ofor]. apply in_or_app. right. apply in_or_app. left. revert T. apply oclaim_tks; auto.
Qed.
Lemma olambda i r a e : dim a = true -> oclaim e -> oclaim (NLambda i r (Some a) (Some e)).
Proof.
  intros A C. apply self_shown; [reflexivity|]. intros v Hh V K. apply view_inv in V as [<-|(_ & c & I & V)]; [apply incl_refl|].
  pose proof (here_part _ _ _ Hh eq_refl I) as Hc. cbn [parts_of opt_list app] in I. destruct I as [<-|[<-|[]]].
  - destruct (dim_novar _ _ A V K).
  - intros t T. cbn [tokens ofor]. apply in_or_app. right. revert T. now apply oclaim_tks.
Qed.

Definition obclaim (q : node) : Prop :=
  match q with
  | NBinding _ _ p v _ => (exists i r ns d, p = NAttrPath i r ns d /\ Forall (fun n => dim n = true) ns) /\ exists e, v = Some e /\ oclaim e
  | NInherit _ _ _ _ => True
  | _ => False
  end.
Definition oboclaim (o : option node) : Prop :=
  match o with None => True | Some (NBinds _ _ bs) => Forall obclaim bs | _ => False end.
Lemma oattrs i r bd rc st dy : oboclaim bd -> oclaim (NAttrs i r bd rc st dy).
Proof.
  intros B Hh. destruct (doc_action src root ds HP _ _ _ _ _ _ (proj1 Hh)) as (s0 & s' & news & A & D & R & _).
  pose proof (quiet_news ds HE _ _ _ D R) as Qu. unfold onExprAttrs in A. pb A sa s1 L. pb A j s2 F. apply ret_ok in A as [A ->].
  injection A as _ Est Edy. apply fresh_ok in F.
  assert (Esa : SA st dy = sa) by (destruct sa; cbn in *; congruence).
  assert (Hb : forall q, In q (binds_list bd) -> obclaim q /\ here q).
  { destruct bd as [bn|]; [|intros q []]. pose proof (here_part root _ bn Hh eq_refl (or_introl eq_refl)) as Hn.
    destruct bn; try (destruct B; fail). cbn [oboclaim binds_list] in *. rewrite Forall_forall in B. intros q I. split; auto. eapply here_part; [exact Hn|reflexivity|exact I]. }
  assert (Tb : Forall (fun q => settame (bval q)) (binds_list bd)).
  { apply Forall_forall. intros q I v ii Ev Ei. destruct (Hb _ I) as [Bq Hq]. destruct q; try discriminate Ev. cbn [bval] in Ev. subst value.
    destruct Bq as [_ (e & [= <-] & Ce)]. refine (proj1 (Ce _) _ Ei). eapply here_part; [exact Hq|reflexivity|]. right. now left. }
  apply binds_sh in L as [T L]; [|apply tamed_empty|exact Tb]. destruct L as [_ L]; [lia|]. split.
  - intros sa0 [= <-]. now rewrite Esa.
  - intros v V K. apply view_inv in V as [<-|(_ & bn & I & V)]; [discriminate K|]. destruct bd as [b0|]; [|destruct I]. destruct I as [->|[]].
    destruct bn; try (destruct B; fail). cbn [binds_list] in *. apply view_inv in V as [<-|(_ & q & I & V)]; [discriminate K|]. cbn [parts_of] in I.
    destruct (Hb _ I) as [Bq Hq]. rewrite Forall_forall in L. specialize (L _ I). destruct q; try (destruct Bq; fail).
    + destruct Bq as [(ip & rp & ns & dd & -> & Bn) (e & -> & Be)]. apply view_inv in V as [<-|(_ & p & J & V)]; [discriminate K|].
      pose proof (here_part _ _ _ Hq eq_refl J) as Hp. cbn [parts_of opt_list] in J. destruct J as [<-|[<-|[]]]; [destruct (path_novar _ _ _ _ _ Bn V K)|].
      destruct (Be Hp) as [_ C]. destruct (C v V K) as (w & S & Rw). exists w. split; [|exact Rw].
      apply (shown_set (NAttrs i r (Some (NBinds id r0 bs)) rc st dy) (SA st dy)); [reflexivity|]. rewrite Esa. eapply L; [reflexivity|exact S].
    + refine (match dim_novar _ _ _ V K with end). reflexivity.
Qed.

Definition OQ (X : sym) : Prop :=
  match X with
  | Expr n | Op n | App n | Sel n | Simple n | Str _ n | Interp _ _ n => oclaim n
  | Name n => dim n = true
  | Sels ns => Forall oclaim ns
  | Names ns | AttrPath ns => Forall (fun n => dim n = true) ns
  | Parts _ fs | Frags _ fs => Forall oclaim (inrs fs)
  | Bind n => obclaim n
  | GramSpec.Binds ns => Forall obclaim ns
  | BindsO o => oboclaim o
  | Default _ | Formals _ _ | FormalSet _ => True
  | Arg a => dim a = true
  end.
Ltac unpack := repeat match goal with
  | H : In _ [] |- _ => destruct H
  | H : False |- _ => destruct H
  | H : In _ [_] |- _ => destruct H as [<-|[]]
  | H : In _ (_ :: _) |- _ => destruct H as [<-|H]
  | H : In _ (_ ++ _) |- _ => apply in_app_iff in H as [H|H]
  end.
Ltac parts := apply ogen; [reflexivity|cbn [parts_of opt_list app]; intros ?c ?I; repeat match goal with H : Forall _ _ |- _ => rewrite Forall_forall in H end; unpack; auto].
Lemma opthc i r ip rp fs : Forall oclaim (inrs (flatten fs)) -> oclaim (NPath i r (NParts ip rp fs)).
Proof. rewrite inrs_flatten. intros F. assert (oclaim (NParts ip rp fs)) by parts. apply ogen; [reflexivity|]. intros c [<-|[]]; auto. Qed.
Lemma gram_shown X its : gram false X its -> OQ X.
Proof.
  induction 1; cbn [OQ] in *; auto.
  all: try reflexivity.
  all: try (parts; fail).
  all: try (apply olambda; assumption).
  all: try (apply oattrs; assumption).
  all: try (apply ovar).
  all: try (apply dimclaim; reflexivity).
  all: try (apply oleaf; reflexivity).
  all: try (apply opthc; assumption).
  all: try (apply oselect; [assumption|assumption|intros x Ex; first [discriminate Ex|injection Ex as <-; assumption]]).
  all: try (rewrite ?inrs_app, ?inrs_text, ?app_nil_r; assumption).
  all: try (rewrite ?inrs_app; apply Forall_app; split; [assumption|apply Forall_cons; [assumption|apply Forall_nil]]).
  all: try (rewrite inrs_text; apply Forall_nil).
  all: try apply Forall_nil.
  all: try (apply Forall_cons; [assumption|apply Forall_nil]).
  all: try (apply ogen; [reflexivity|cbn [parts_of opt_list app]; intros ?c ?I; unpack; auto using opath, oattrs; fail]).
  all: try (apply ogen; [reflexivity|cbn [parts_of opt_list app]; intros ?c ?I; unpack; apply oleaf; reflexivity]).
  all: cbn [obclaim oboclaim]; try exact I.
  all: try (split; [|eauto]; do 4 eexists; split; [reflexivity|assumption]).
Qed.
End Doc.

Lemma every_coloured src root ds s v : parse src = Ok (Some root, ds) -> no_errors ds -> in_view root v -> kind_of v = NK_ExprVar ->
  incl (tokVar s src v) (tokens s src root).
Proof.
  intros HP HE V K. destruct (C68_partial_proof _ _ _ HP HE) as (its & _ & Gr).
  pose proof (gram_shown _ _ _ s HP HE _ _ Gr) as C. cbn [OQ] in C.
  assert (H : SeenProofs.here root root) by (split; [apply node_self|apply GramSpec.within_self]).
  pose proof (oclaim_tks src root s root v C H V K) as I. destruct v; try discriminate K. exact I.
Qed.
Lemma tokVar_one s src v : line (nl v) = line (nr v) -> exists t, In t (tokVar s src v).
Proof.
  intros L. assert (A : forall t m, exists u, In u (addTok src v t m)).
  { intros t m. unfold addTok, skipTok. rewrite L, Nat.eqb_refl. cbn. eauto. }
  unfold tokVar. repeat match goal with |- context [if ?c then _ else _] => destruct c | |- context [match ?q with _ => _ end] => destruct q end; apply A.
Qed.
