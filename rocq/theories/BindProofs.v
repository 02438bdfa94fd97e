(** Proofs for C47, C50, C51. *)
From Verif Require Import Base Diag LexModel LexSpec LexProofs LexLongSpec AstModel PSupModel SemaModel ParseModel NavModel ConnModel ActModel
  ReadTools ReadString GramSpec GramProofs BindModel BindSpec BindLaid BindText BindKey.
Notation G := (gram false).

Lemma spans_src src n its : spans src n its -> exists t z, nsrc src n = Ok t /\ ref_slice src (off (nl n)) (off (nr n)) = t /\ laid true its t z.
Proof.
  intros (a & t & z & Hs & Ha & Hb & Hl). exists t, z. unfold nl, nr. rewrite <- Ha, <- Hb.
  assert (X : firstn (List.length (a ++ t) - List.length a) (skipn (List.length a) src) = t).
  { rewrite Hs, skipn_app, skipn_all, Nat.sub_diag, app_length. cbn [skipn app].
    replace (List.length a + List.length t - List.length a) with (List.length t) by lia.
    now rewrite firstn_app, firstn_all, Nat.sub_diag, firstn_O, app_nil_r. }
  unfold nsrc, nl, nr, ref_slice. rewrite <- Ha, <- Hb. split; [|auto].
  rewrite Hs at 1. rewrite !app_length. destruct (Nat.ltb_spec (List.length a + (List.length t + List.length z)) (List.length a)); [lia|].
  destruct (Nat.ltb_spec (List.length a + List.length t) (List.length a)); [lia|]. now rewrite <- app_length, X.
Qed.

Lemma attrpath_app ns2 i2 : G (AttrPath ns2) i2 -> forall ns1 i1, G (AttrPath ns1) i1 -> G (AttrPath (ns1 ++ ns2)) (i1 ++ [E tok_dot (b ".")] ++ i2).
Proof.
  intros H. remember (AttrPath ns2) as X. revert ns2 HeqX. induction H; intros ns2 E'; try discriminate; intros ns1 i0 HX.
  - injection E' as <-. apply g_attrpath_dot; auto.
  - injection E' as <-. specialize (IHgram_at1 _ eq_refl _ _ HX). rewrite !app_assoc in *. rewrite <- (app_assoc _ [E tok_dot v] i2).
    apply g_attrpath_dot; auto.
Qed.
Lemma heads_ne X its : gram false X its -> heads X its = (its <> [] /\ loose its = true) -> its <> [] /\ loose its = true.
Proof. intros H E'. rewrite <- E'. eapply gram_heads; eauto. Qed.

Lemma dotted_laid i1 t1 i2 t2 r : i1 <> [] -> (forall r, laid true i1 t1 ("."%char :: r)) -> name_first i2 -> laid true i2 t2 r ->
  laid true (i1 ++ [E tok_dot (b ".")] ++ i2) (t1 ++ b "." ++ t2) r.
Proof.
  intros Hn H1 Hf H2. destruct (first_text _ _ _ Hf H2) as (c & u & -> & Hc).
  apply laid_app; [apply H1| |auto]. apply laid_app; [|eapply laid_loose; eauto|auto].
  apply laid_loose with (tg := true). now apply laid_dot.
Qed.
Lemma binding_laid ip tp ie te more : ip <> [] -> ie <> [] -> loose ie = true -> (forall r, laid true ip tp (" "%char :: r)) ->
  (forall r, laid true ie te (";"%char :: r)) -> laid true (ip ++ [E tok_eq (b "=")] ++ ie ++ [E tok_semi_colon (b ";")]) (tp ++ b " = " ++ te ++ b ";") more.
Proof.
  intros Hn1 Hn2 Hl H1 H2. apply laid_app; [apply H1| |auto].
  change (b " = " ++ te ++ b ";") with ((" "%char :: b "=") ++ (" "%char :: te) ++ b ";").
  apply laid_app; [apply laid_space; [reflexivity|discriminate|apply laid_eq]| |auto].
  apply laid_app; [apply laid_space; auto; apply H2| |auto]. apply laid_loose with (tg := true), laid_semi.
Qed.
Lemma weaken src X its : gram_at false (spans src) X its -> G X its.
Proof. apply gram_weaken. auto. Qed.

(** * Flatten *)
Section Src.
Variable src : bytes.
Notation GS := (gram_at false (spans src)).
Lemma binds_each bs its : GS (Binds bs) its -> Forall (fun m => exists i, GS (Bind m) i) bs.
Proof.
  intros H. remember (Binds bs) as X. revert bs HeqX. induction H; intros bs0 E'; try discriminate.
  - injection E' as <-. constructor.
  - injection E' as <-. apply Forall_app. split; eauto.
Qed.
Lemma binds_cons n i bs its : G (Binds bs) its -> G (Bind n) i -> G (Binds (n :: bs)) (i ++ its).
Proof.
  intros H Hn. remember (Binds bs) as X. revert bs HeqX. induction H; intros bs0 E'; try discriminate.
  - injection E' as <-. rewrite app_nil_r. apply (g_binds_snoc false _ [] n [] i); auto. constructor.
  - injection E' as <-. rewrite app_assoc. apply (g_binds_snoc false _ (n :: ns)); auto.
Qed.
(** a path and a value, as texts *)
Lemma path_text p i1 : (exists ns ip rp ds, p = NAttrPath ip rp ns ds /\ GS (AttrPath ns) i1) -> spans src p i1 ->
  exists t, nsrc src p = Ok t /\ i1 <> [] /\ name_first i1 /\ forall r, after_id r -> laid true i1 t r.
Proof.
  intros (ns & ip & rp & ds & -> & Hg) Hs. destruct (spans_src _ _ _ Hs) as (t & z & Ht & _ & Hl). exists t. split; auto.
  split; [eapply (gram_heads _ _ Hg)|]. split; [eapply first_attrpath; eauto|].
  intros [|c r] Hr; [destruct Hr|]. destruct Hr as [Hr| ->].
  - eapply place_end; eauto.
  - eapply place_dot; eauto. eapply dot_attrpath; eauto.
Qed.
Lemma value_text e i1 : GS (Expr e) i1 -> spans src e i1 ->
  exists t, nsrc src e = Ok t /\ ref_slice src (off (nl e)) (off (nr e)) = t /\ i1 <> [] /\ loose i1 = true /\ forall c r, In c ends -> laid true i1 t (c :: r).
Proof.
  intros Hg Hs. destruct (spans_src _ _ _ Hs) as (t & z & Ht & Ht' & Hl). exists t. split; auto. split; auto.
  destruct (gram_heads _ _ Hg) as [H1 H2]. split; auto. split; auto. intros c r Hc. eapply place_end; eauto.
Qed.
Lemma simple_text e i1 : GS (Simple e) i1 -> spans src e i1 ->
  exists t, nsrc src e = Ok t /\ ref_slice src (off (nl e)) (off (nr e)) = t /\ i1 <> [] /\ loose i1 = true /\ (forall c r, In c ends -> laid true i1 t (c :: r)) /\
    (dottable e = true -> forall r, laid true i1 t ("."%char :: r)).
Proof.
  intros Hg Hs. destruct (spans_src _ _ _ Hs) as (t & z & Ht & Ht' & Hl). exists t. split; auto. split; auto.
  destruct (gram_heads _ _ Hg) as [H1 H2]. split; auto. split; auto. split; [intros c r Hc; eapply place_end; eauto|].
  intros Hd r. eapply place_dot; eauto. eapply dot_simple; eauto.
Qed.
Definition pre (ks : list key) (l : list key * node) := (ks ++ fst l, snd l).

Lemma flatten_reads p i0 outer ns : G (AttrPath ns) i0 -> keys_of p = map key_of ns -> i0 <> [] -> (forall r, laid true i0 outer ("."%char :: r)) ->
  forall bs T, Forall (fun m => exists i, GS (Bind m) i) bs -> bs <> [] -> flattenText src outer bs = Ok T ->
  exists bs', reads T bs' /\ tree bs' = map (pre (keys_of p)) (tree bs).
Proof.
  intros Hg0 Hk Hne Hl0. induction bs as [|m bs IH]; intros T HF Hbs HT; [congruence|]. clear Hbs.
  inversion HF as [|? ? [i Hm] HF']; subst. cbn [flattenText] in HT. destruct m as [| | | | | | | | | | | | | |mi mr mp mv me| | | | | | | | | | | | | | | | | | |]; try discriminate HT.
  inversion Hm; subst. 
  destruct (path_text _ _ ltac:(do 4 eexists; split; [reflexivity|eassumption]) ltac:(eassumption)) as (inner & E1 & Hn1 & Hf1 & Hl1).
  destruct (value_text _ _ ltac:(eassumption) ltac:(eassumption)) as (vt & E2 & _ & Hn2 & Hlo2 & Hl2).
  rewrite E1 in HT. cbn [bind value_src] in HT. rewrite E2 in HT. cbn [bind] in HT.
  destruct (flattenText src outer bs) as [rest| |] eqn:Er; try discriminate HT. cbn [bind] in HT. injection HT as <-.
  pose (m' := NBinding mi mr (NAttrPath ip rp (ns ++ ns0) ds) (Some e) (Some eq)).
  assert (Hm' : exists i', G (Bind m') i' /\ i' <> [] /\ forall more, laid true i' (outer ++ b "." ++ inner ++ b " = " ++ vt ++ b ";") more).
  { exists ((i0 ++ [E tok_dot (b ".")] ++ i2) ++ [E tok_eq (b "=")] ++ i3 ++ [E tok_semi_colon (b ";")]). split; [|split].
    - apply g_binding; auto; [|eapply weaken; eauto]. apply attrpath_app; auto. eapply weaken; eauto.
    - destruct i0; [congruence|discriminate].
    - intros more. replace (outer ++ b "." ++ inner ++ b " = " ++ vt ++ b ";") with ((outer ++ b "." ++ inner) ++ b " = " ++ vt ++ b ";") by now rewrite <- !app_assoc.
      apply binding_laid; auto.
      + destruct i0; [congruence|discriminate].
      + intros r. apply dotted_laid; auto. apply Hl1. cbn. tauto.
      + intros r. apply Hl2. cbn. tauto. }
  destruct Hm' as (i' & Hg' & Hn' & Hl').
  assert (Hv : leaves m' = map (pre (keys_of p)) (leaves (NBinding mi mr (NAttrPath ip rp ns0 ds) (Some e) (Some eq)))).
  { unfold m'. cbn [leaves]. rewrite map_map. apply map_ext. intros [ks x]. unfold pre. cbn [fst snd keys_of].
    rewrite Hk, map_app, <- app_assoc. reflexivity. }
  destruct bs as [|m2 bs].
  - exists [m']. cbn [flattenText] in Er. injection Er as <-. split.
    + exists i'. split; [apply (g_binds_snoc false _ [] m' [] i'); auto; constructor|]. exact Hl'.
    + cbn [tree flat_map]. rewrite !app_nil_r. exact Hv.
  - destruct (IH rest HF' ltac:(discriminate) eq_refl) as (bs' & (its & Hgs & Hls) & Ht).
    exists (m' :: bs'). split.
    + exists (i' ++ its). split; [now apply binds_cons|]. intros more.
      match goal with |- laid _ _ ?x _ => replace x with ((outer ++ b "." ++ inner ++ b " = " ++ vt ++ b ";") ++ " "%char :: rest)
        by (rewrite <- !app_assoc; reflexivity) end.
      apply laid_app; [apply Hl'| |auto]. destruct its as [|x its].
      * exfalso. specialize (Hls []). inversion Hls; subst. cbn [flattenText] in Er. destruct m2; try discriminate Er.
        repeat match type of Er with bind ?x _ = _ => destruct x; try discriminate Er; cbn [bind] in Er end. injection Er as Er. destruct outer; discriminate.
      * apply laid_space; auto; [|discriminate]. apply (gram_heads _ _ Hgs).
    + change (tree (m' :: bs')) with (leaves m' ++ tree bs'). rewrite Hv, Ht. symmetry. apply map_app.
Qed.

Lemma attrs_binds a its i r bid br bs st dy : a = NAttrs i r (Some (NBinds bid br bs)) None st dy -> GS (Expr a) its ->
  exists i', GS (Binds bs) i'.
Proof.
  intros -> H. apply simple_of in H; [|exact I]. inversion H; subst. match goal with X : GS (Simple _) _ |- _ => inversion X; subst; clear X end.
  - match goal with X : GS (Str _ _) _ |- _ => inversion X end.
  - match goal with X : GS (BindsO _) _ |- _ => inversion X; subst; eauto end.
Qed.
Lemma leaves_set i r p a b' v bs bi br st dy : v = NAttrs a b' (Some (NBinds bi br bs)) None st dy -> forall eq,
  leaves (NBinding i r p (Some v) eq) = map (pre (keys_of p)) (tree bs).
Proof. intros -> eq. reflexivity. Qed.
Lemma flatten_ok m its e : GS (Bind m) its -> flattenAttrs src m = Ok (Some e) ->
  e_range e = nrange m /\ exists bs', reads (e_text e) bs' /\ tree bs' = leaves m.
Proof.
  intros Hg He. unfold flattenAttrs in He.
  destruct m as [| | | | | | | | | | | | | |mi mr mp mv me| | | | | | | | | | | | | | | | | | |]; try discriminate He.
  destruct mv as [v|]; [|discriminate He]. destruct (flattenable v) as [bs|] eqn:Ef; [|discriminate He].
  destruct (forallb isStatic (path_names mp)); [|discriminate He].
  inversion Hg; subst.
  destruct (path_text _ _ ltac:(do 4 eexists; split; [reflexivity|eassumption]) ltac:(eassumption)) as (outer & E1 & Hn1 & Hf1 & Hl1).
  rewrite E1 in He. cbn [bind] in He. destruct (flattenText src outer bs) as [T| |] eqn:ET; try discriminate He. cbn [bind] in He.
  injection He as <-. cbn [e_range e_text nrange]. split; auto.
  unfold flattenable in Ef. destruct v; try discriminate Ef. destruct body as [bd|]; try discriminate Ef. destruct bd; try discriminate Ef.
  destruct rc; try discriminate Ef. destruct bs0 as [|b1 bs1] eqn:Eb; [discriminate Ef|]. rewrite <- Eb in *.
  destruct (forallb _ bs0) in Ef; [|discriminate Ef]. injection Ef as <-.
  edestruct attrs_binds as [i' Hb]; [reflexivity|eassumption|].
  destruct (flatten_reads (NAttrPath ip rp ns ds) i1 outer ns (weaken _ _ _ H5) eq_refl Hn1 (fun r => Hl1 ("."%char :: r) (or_intror eq_refl))
    bs0 T (binds_each _ _ Hb) ltac:(subst; discriminate) ET) as (bs' & Hr & Ht).
  exists bs'. split; auto.
Qed.

(** * Convert to inherit *)
Lemma key_static n x : staticName n = Some x -> key_of n = inl x.
Proof.
  unfold staticName, key_of. destruct n; try discriminate. destruct n; try discriminate; [now intros [= ->]|].
  destruct n; try discriminate. cbn. destruct frags as [|[t|] [|]]; try discriminate. intros [= ->]. cbn. now rewrite app_nil_r.
Qed.
Definition named (ns : list node) (its : list item) (T : bytes) : Prop := G (AttrPath ns) its /\ forall r, after_id r -> laid true its T r.
Lemma source_more t0 segs : forall ns its T t', named ns its T -> sourceText (t0 ++ b "." ++ T) segs = Some t' ->
  exists ns' its' T', named ns' its' T' /\ t' = t0 ++ b "." ++ T' /\ map key_of ns' = map key_of ns ++ map key_of segs.
Proof.
  induction segs as [|s segs IH]; intros ns its T t' [Hg Hl] H.
  - injection H as <-. exists ns, its, T. cbn [map]. rewrite app_nil_r. split; [split|]; auto.
  - cbn [sourceText] in H. destruct (staticName s) as [x|] eqn:Es; [|discriminate].
    destruct (key_laid (strict := false) x) as (n & i & Hn & Hk & Hf & Hd & Hln).
    replace ((t0 ++ b "." ++ T) ++ b "." ++ quoteNixAttrKey x) with (t0 ++ b "." ++ (T ++ b "." ++ quoteNixAttrKey x)) in H by now rewrite <- !app_assoc.
    destruct (IH (ns ++ [n]) (its ++ [E tok_dot (b ".")] ++ i) (T ++ b "." ++ quoteNixAttrKey x) t') as (ns' & its' & T' & H1 & H2 & H3); auto.
    + split; [apply g_attrpath_dot; auto|]. intros r Hr. apply dotted_laid; auto.
      * apply (gram_heads _ _ Hg).
      * intros r0. apply Hl. cbn. tauto.
    + exists ns', its', T'. split; auto. split; auto. rewrite H3, map_app. cbn [map]. rewrite Hk, (key_static _ _ Es), <- app_assoc. reflexivity.
Qed.
Lemma source_reads t0 segs t' : segs <> [] -> sourceText t0 segs = Some t' ->
  exists ns' its' T', named ns' its' T' /\ t' = t0 ++ b "." ++ T' /\ map key_of ns' = map key_of segs.
Proof.
  intros Hn H. destruct segs as [|s segs]; [congruence|]. cbn [sourceText] in H. destruct (staticName s) as [x|] eqn:Es; [|discriminate].
  destruct (key_laid (strict := false) x) as (n & i & Hg & Hk & Hf & Hd & Hln).
  destruct (source_more t0 segs [n] i (quoteNixAttrKey x) t') as (ns' & its' & T' & H1 & H2 & H3); auto.
  - split; auto. apply g_attrpath_one; auto.
  - exists ns', its', T'. split; auto. split; auto. rewrite H3. cbn [map]. now rewrite Hk, (key_static _ _ Es).
Qed.
Definition r0 := mkRange cur0 cur0.
Lemma reads_one n its t : G (Bind n) its -> (forall more, laid true its t more) -> reads t [n].
Proof. intros H Hl. exists its. split; auto. apply (g_binds_snoc false _ [] n [] its); auto; constructor. Qed.
Lemma names_one n its : G (Name n) its -> G (Names [n]) its.
Proof. intros H. apply (g_names_snoc false _ [] n [] its); auto; constructor. Qed.

(** the text [t] is an expression that is the selection [o] *)
Definition selects (t : bytes) (o : origin * list key) : Prop :=
  exists e its, G (Expr e) its /\ selection e = o /\ forall r, laid true its t (")"%char :: r).
Lemma inherit_from_reads x t o : selects t o -> exists nm e, key_of nm = inl x /\ selection e = o /\
  reads (b "inherit (" ++ t ++ b ") " ++ quoteNixAttrKey x ++ b ";") [NInherit 0 r0 [nm] (Some e)].
Proof.
  intros (e & ie & Hg & Ho & Hl). destruct (key_laid (strict := false) x) as (n & i & Hn & Hk & Hf & Hd & Hln).
  exists n, e. split; auto. split; auto.
  apply reads_one with (its := [E tok_kw_inherit (b "inherit"); E tok_l_paren (b "(")] ++ ie ++ [E tok_r_paren (b ")")] ++ i ++ [E tok_semi_colon (b ";")]).
  - apply g_inherit_from; auto. now apply names_one.
  - intros more. destruct (gram_heads _ _ Hg) as [He1 He2].
    change (b "inherit (" ++ t ++ b ") " ++ quoteNixAttrKey x ++ b ";") with (b "inherit" ++ (" "%char :: b "(") ++ t ++ b ")" ++ (" "%char :: quoteNixAttrKey x) ++ b ";").
    apply (laid_app true [E tok_kw_inherit (b "inherit")]); [apply laid_inherit| |left; discriminate].
    apply (laid_app false [E tok_l_paren (b "(")]); [apply laid_space; [reflexivity|discriminate|apply laid_lparen]| |auto].
    apply laid_app; [apply laid_loose with (tg := true), Hl| |auto].
    apply laid_app; [apply laid_loose with (tg := true), laid_rparen| |auto].
    apply laid_app; [|apply laid_loose with (tg := true), laid_semi|auto].
    destruct (gram_heads _ _ Hn). apply laid_space; auto. apply Hln. cbn. tauto.
Qed.
Lemma inherit_reads x : exists nm, key_of nm = inl x /\ reads (b "inherit " ++ quoteNixAttrKey x ++ b ";") [NInherit 0 r0 [nm] None].
Proof.
  destruct (key_laid (strict := false) x) as (n & i & Hn & Hk & Hf & Hd & Hln).
  exists n. split; auto. apply reads_one with (its := [E tok_kw_inherit (b "inherit")] ++ i ++ [E tok_semi_colon (b ";")]).
  - apply g_inherit; auto. now apply names_one.
  - intros more. change (b "inherit " ++ quoteNixAttrKey x ++ b ";") with (b "inherit" ++ (" "%char :: quoteNixAttrKey x) ++ b ";").
    apply laid_app; [apply laid_inherit| |left; discriminate].
    apply laid_app; [|apply laid_loose with (tg := true), laid_semi|auto].
    destruct (gram_heads _ _ Hn). apply laid_space; auto. apply Hln. cbn. tauto.
Qed.

Lemma select_inv i r e d p o ds its : GS (Expr (NSelect i r e d (Some p) o ds)) its -> exists i1 i2 ns ip rp dd,
  p = NAttrPath ip rp ns dd /\ GS (Simple e) i1 /\ spans src e i1 /\ GS (AttrPath ns) i2 /\ spans src p i2.
Proof.
  intros H. apply simple_of in H; [|exact I]. inversion H; subst; try solve [do 6 eexists; repeat split; try reflexivity; eauto].
  match goal with X : GS (Simple _) _ |- _ => inversion X; subst; clear X end. match goal with X : GS (Str _ _) _ |- _ => inversion X end.
Qed.
Lemma expr_of_simple e its : G (Simple e) its -> G (Expr e) its.
Proof. intros H. now apply g_op, g_app, g_sel, g_simple. Qed.

Definition base_ok (m : node) : Prop :=
  match m with
  | NBinding _ _ _ (Some (NSelect _ _ e _ (Some (NAttrPath _ _ ns _)) _ _)) _ => List.length ns > 1 -> dottable e = true
  | _ => True
  end.
Lemma toInherit_ok rec m its e : GS (Bind m) its -> toInherit src m = Some e -> base_ok m ->
  (rec = true -> match m with NBinding _ _ _ (Some (NVar _ _ _)) _ => False | _ => True end) ->
  e_range e = nrange m /\ exists n', reads (e_text e) [n'] /\ bound rec n' = bound rec m.
Proof.
  intros Hg He Hb Hr. unfold toInherit in He.
  destruct m as [| | | | | | | | | | | | | |mi mr mp mv me| | | | | | | | | | | | | | | | | | |]; try discriminate He.
  destruct mv as [v|]; [|discriminate He]. inversion Hg; subst. cbn [path_names] in He.
  destruct ns as [|nm [|]]; try discriminate He. destruct (staticName nm) as [x|] eqn:Ex; [|discriminate He].
  pose proof (key_static _ _ Ex) as Kx.
  destruct v; try discriminate He.
  - destruct v; try discriminate He. destruct (bytes_eqb name x) eqn:Ey; [|discriminate He]. apply bytes_eqb_spec in Ey. subst name.
    injection He as <-. split; [reflexivity|]. destruct (inherit_reads x) as (nm' & Hk & Hrd). eexists. split; [exact Hrd|].
    destruct rec; [destruct (Hr eq_refl)|]. cbn [bound map keys_of selection own]. rewrite Hk, Kx. reflexivity.
  - destruct path as [q|]; [|discriminate He]. destruct dflt; [discriminate He|].
    destruct (select_inv _ _ _ _ _ _ _ _ ltac:(eassumption)) as (j1 & j2 & ns & jp & jr & dd & -> & Hs & Hsp & Hp & _).
    cbn [path_names] in He. cbn [base_ok] in Hb. destruct (rev ns) as [|lastseg before] eqn:Er; [discriminate He|].
    assert (Ens : ns = rev before ++ [lastseg]) by (rewrite <- (rev_involutive ns), Er; reflexivity).
    destruct (staticName lastseg) as [y|] eqn:Ely; [|discriminate He]. destruct (bytes_eqb y x) eqn:Ey; [|discriminate He].
    apply bytes_eqb_spec in Ey. subst y. destruct (sourceText _ (rev before)) as [t|] eqn:Et; [|discriminate He]. injection He as <-.
    split; [reflexivity|].
    destruct (simple_text _ _ Hs Hsp) as (te & _ & Esl & Hn & Hlo & Hle & Hld). rewrite Esl in Et.
    assert (Hsel : selects t (let (o, ks) := selection v in (o, ks ++ map key_of (rev before)))).
    { destruct (rev before) as [|sg sgs] eqn:Ebf.
      - injection Et as <-. exists v, j1. split; [apply expr_of_simple; eapply weaken; eauto|]. cbn [map]. split.
        + destruct (selection v). now rewrite app_nil_r.
        + intros r1. apply Hle. cbn. tauto.
      - rewrite <- Ebf in *. assert (Hlen : List.length ns > 1) by (rewrite Ens, app_length, Ebf; cbn; lia).
        destruct (source_reads te (rev before) t) as (ns' & its' & T' & [Hga Hla] & -> & Hk); [rewrite Ebf; discriminate|exact Et|].
        exists (NSelect 0 r0 v (Some (NMisc 0 r0)) (Some (NAttrPath 0 r0 ns' [])) None None), (j1 ++ [E tok_dot (b ".")] ++ its').
        split; [|split].
        + apply g_op, g_app, g_sel. apply g_select; auto. eapply weaken; eauto.
        + cbn [selection keys_of]. destruct (selection v). now rewrite Hk.
        + intros r1. apply dotted_laid; auto. { eapply first_attrpath; eauto. } apply Hla. cbn. tauto. }
    destruct (inherit_from_reads x _ _ Hsel) as (nm' & e' & Hk & Hse & Hrd). eexists. split; [exact Hrd|].
    cbn [bound map keys_of selection]. rewrite Hse, Hk, Kx, Ens. rewrite map_app. cbn [map]. rewrite (key_static _ _ Ely).
    destruct (selection v). now rewrite <- app_assoc.
Qed.

(** * Convert to binding *)
Definition dots (e : node) : bool := match e with NSelect _ _ _ _ _ None _ => true | _ => dottable e end.
Lemma dots_text e its : GS (Expr e) its -> spans src e its -> dots e = true ->
  exists t, nsrc src e = Ok t /\ forall ns i2 T, named ns i2 T ->
    exists e' ie, G (Expr e') ie /\ selection e' = (let (o, ks) := selection e in (o, ks ++ map key_of ns)) /\
      forall r, after_id r -> laid true ie (t ++ b "." ++ T) r.
Proof.
  intros Hg Hs Hd. destruct (spans_src _ _ _ Hs) as (t & z & Ht & _ & Hl). exists t. split; auto. intros ns i2 T [Hga Hla].
  assert (Hne : its <> []) by apply (gram_heads _ _ Hg). assert (Hf : name_first i2) by (eapply first_attrpath; eauto).
  assert (Hdt : dottable e = true -> exists e' ie, G (Expr e') ie /\ selection e' = (let (o, ks) := selection e in (o, ks ++ map key_of ns)) /\
      forall r, after_id r -> laid true ie (t ++ b "." ++ T) r).
  { intros Hdd. assert (Hsim : GS (Simple e) its).
    { apply simple_of in Hg; [|destruct e; try discriminate Hdd; exact I]. inversion Hg; subst; auto; discriminate Hdd. }
    exists (NSelect 0 r0 e (Some (NMisc 0 r0)) (Some (NAttrPath 0 r0 ns [])) None None), (its ++ [E tok_dot (b ".")] ++ i2).
    split; [|split].
    - apply g_op, g_app, g_sel. apply g_select; auto. eapply weaken; eauto.
    - reflexivity.
    - intros r Hr. apply dotted_laid; auto. intros r1. eapply place_dot; eauto. eapply dot_simple; eauto. }
  destruct e; try (apply Hdt; exact Hd). clear Hdt. destruct dflt; [discriminate Hd|].
  pose proof Hg as Hg'. apply simple_of in Hg'; [|exact I]. inversion Hg'; subst.
  { match goal with X : GS (Simple _) _ |- _ => inversion X; subst; clear X end. match goal with X : GS (Str _ _) _ |- _ => inversion X end. }
  exists (NSelect 0 r0 e (Some (NMisc 0 r0)) (Some (NAttrPath 0 r0 (ns0 ++ ns) [])) None None), ((i1 ++ [E tok_dot v] ++ i0) ++ [E tok_dot (b ".")] ++ i2).
  split; [|split].
  - rewrite <- !app_assoc. apply g_op, g_app, g_sel. apply g_select; auto; [eapply weaken; eauto|]. apply attrpath_app; auto. eapply weaken; eauto.
  - cbn [selection keys_of]. destruct (selection e). now rewrite map_app, app_assoc.
  - intros rr Hr. apply dotted_laid; auto. intros r1. eapply place_dot; eauto. rewrite app_assoc. apply dot_app. eapply dot_attrpath; eauto.
Qed.

Lemma toBinding_ok rec m its e x : GS (Bind m) its -> toBinding src m = Ok (Some e) ->
  match m with NInherit _ _ ns o => map key_of ns = [inl x] /\ match o with Some e => dots e = true | None => rec = false end | _ => False end ->
  spelled PS_Expr tok_id x ->
  e_range e = nrange m /\ exists n', reads (e_text e) [n'] /\ bound rec n' = bound rec m.
Proof.
  intros Hg He Hm Hx. destruct m; try contradiction. destruct Hm as [Hk Hc]. unfold toBinding in He.
  destruct names as [|nm [|]]; try discriminate He. destruct (staticName nm) as [y|] eqn:Ey; [|discriminate He].
  pose proof (key_static _ _ Ey) as Ky. cbn [map] in Hk. rewrite Ky in Hk. injection Hk as ->.
  assert (Hname : named [NAttrName 0 r0 (NIdent 0 r0 x)] [E tok_id x] x).
  { split; [apply g_attrpath_one; auto; constructor|]. intros r1 Hr1. now apply ident_laid. }
  destruct e0 as [e0|].
  - inversion Hg; subst. destruct (dots_text _ _ ltac:(eassumption) ltac:(eassumption) Hc) as (t & Et & Ht).
    rewrite Et in He. cbn [bind] in He. injection He as <-. split; [reflexivity|].
    destruct (Ht _ _ _ Hname) as (e' & ie & Hge & Hse & Hle).
    exists (NBinding 0 r0 (NAttrPath 0 r0 [NAttrName 0 r0 (NIdent 0 r0 x)] []) (Some e') (Some (NMisc 0 r0))). split.
    + apply reads_one with (its := [E tok_id x] ++ [E tok_eq (b "=")] ++ ie ++ [E tok_semi_colon (b ";")]).
      * apply g_binding; auto. apply Hname.
      * intros more. change (laid true ([E tok_id x] ++ [E tok_eq (b "=")] ++ ie ++ [E tok_semi_colon (b ";")]) (x ++ b " = " ++ (t ++ b "." ++ x) ++ b ";") more).
        destruct (gram_heads _ _ Hge). apply binding_laid; auto; [discriminate| |]; intros r1; [apply Hname|apply Hle]; cbn; tauto.
    + cbn [bound map keys_of]. rewrite Hse, Ky. cbn [key_of map]. reflexivity.
  - injection He as <-. split; [reflexivity|]. subst rec.
    exists (NBinding 0 r0 (NAttrPath 0 r0 [NAttrName 0 r0 (NIdent 0 r0 x)] []) (Some (NVar 0 r0 (NIdent 0 r0 x))) (Some (NMisc 0 r0))). split.
    + apply reads_one with (its := [E tok_id x] ++ [E tok_eq (b "=")] ++ [E tok_id x] ++ [E tok_semi_colon (b ";")]).
      * apply g_binding; auto; [apply Hname|]. apply expr_of_simple. constructor.
      * intros more. change (laid true ([E tok_id x] ++ [E tok_eq (b "=")] ++ [E tok_id x] ++ [E tok_semi_colon (b ";")]) (x ++ b " = " ++ x ++ b ";") more).
        apply binding_laid; auto; try discriminate; intros r1; apply Hname; cbn; tauto.
    + cbn [bound map keys_of]. rewrite Ky. reflexivity.
Qed.
End Src.
