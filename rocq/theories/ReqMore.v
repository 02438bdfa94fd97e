(** Lemmas for the theorems of ReqProps about highlights, quick fixes, settings, texts and definitions. *)
From Verif Require Import Base Diag LexModel AstModel PSupModel SemaModel ParseModel ParseSpec NavModel NavSpec NavProofs VlaModel VlaSpec VlaPost VlaBase VlaThms
  TextModel ActModel ConnModel FeatModel FeatSpec FeatProofs EvalModel CompModel CompProofs RefModel RefSpec RefProofs RefWith IdSpec IdTree IdProofs ParseTree ReqModel ReqSpec ReqProofs ReqLinks.

(** ** highlights *)
Lemma highlight_ok primops root s m n hs : vla primops root = Ok s -> coherent primops root -> identified root ->
  parents root = Ok m -> node_of root n -> highlight root s m n = value hs ->
  exists vs decl, hs = map (fun v => (nrange v, HRead)) vs ++ map (fun q => (nrange q, HWrite)) decl /\
  ((exists sc o x nd, declaration primops root sc o x nd /\ decl = [nd] /\
      ((exists v v', on_variable root n v /\ refers sc o x v' /\ nid v' = nid v) \/ on_name root n nd) /\
      forall v, In v vs <-> refers sc o x v) \/
   (exists sc i r kw semi we e, let w := NWith i r kw semi we e in visit (prelude primops) root sc w /\ decl = [kw] /\
      ((exists v v' sc' x ws, on_variable root n v /\ occurs_at primops root sc' v' x /\ nid v' = nid v /\ unbound sc' x /\
          withs sc' = ws ++ [w]) \/ on_name root n kw) /\
      forall v, In v vs <-> may_use sc w v) \/
   (exists x v v' sc', on_variable root n v /\ occurs_at primops root sc' v' x /\ nid v' = nid v /\
      bound sc' x (prelude primops) /\ decl = [] /\
      forall v, In v vs <-> exists sc, occurs_at primops root sc v x /\ bound sc x (prelude primops))).
Proof.
  intros H C Id E N R. unfold highlight in R. apply tbind_value in R as (d & F & R). apply tbind_value in R as (y & Y & R).
  unfold defAt in Y. destruct (nth_error (v_defs s) d) as [y'|] eqn:Y'; [|discriminate]. injection Y as ->.
  destruct (useNodes root (df_uses y)) as [vs| |] eqn:Us; try discriminate. injection R as <-. exists vs, (match df_syn y with Some q => [q] | None => [] end).
  split; [destruct (df_syn y); reflexivity|].
  destruct (dsource_beq (df_src y) DS_With) eqn:B; [apply internal_dsource_dec_bl in B|apply dsource_neq in B].
  - right; left. destruct (with_uses _ _ _ _ _ H C Y' B) as (sc & i & r & kw & semi & we & e & V & Sy & Fw & U).
    exists sc, i, r, kw, semi, we, e. cbv zeta. set (w := NWith i r kw semi we e) in *. split; auto. split; [now rewrite Sy|]. split.
    + unfold findDefinition in F. apply tbind_value in F as ([v|] & Fv & F).
      * destruct (findVar_on _ _ _ _ Id E N Fv) as [On _]. unfold findVarDefinition in F. left.
        destruct (VlaModel.query s v) as [[|d'|d']|] eqn:Q; try discriminate; injection F as ->.
        -- apply vla_start in H as (s1 & en & _ & _ & _ & _ & Er & _ & _ & _ & P & G).
           destruct (po_res _ _ _ _ _ _ P _ _ Q) as [Z|(sc' & v' & x & V' & Iv & Ei & R)]; [rewrite Er in Z; discriminate|].
           simpl in R. destruct R as (Ub & ws & w' & Ws & F').
           assert (Ew : nid w' = i) by (eapply (proj2 G); eauto).
           destruct (with_opener _ _ _ _ w' V') as (pre & t & -> & Vw & Kw); [rewrite Ws; apply in_app_iff; right; now left|].
           destruct (C _ _ _ _ Vw V Ew) as [_ ->]. exists v, v', (pre ++ WithOf w :: t), x, ws. repeat split; auto; apply Iv.
        -- exfalso. apply vla_start in H as (s1 & en & _ & _ & _ & _ & Er & _ & _ & _ & P & G).
           destruct (po_resuse _ _ _ _ _ _ P _ _ Q) as [Z|(y' & Y1 & Nw & I)]; [rewrite Er in Z; discriminate|].
           rewrite (defn_fun _ _ _ _ Y1 Y') in *. contradiction.
      * destruct (findSelfDefinition s m n) as [d'|] eqn:Sd; [|discriminate]. injection F as ->. right.
        destruct (self_name _ _ _ _ _ _ _ H Id E N Sd Y') as (nd & S & O). congruence.
    + destruct (uses_set primops root (df_uses y) (may_use sc w) C) as (vs' & E' & A); auto.
      { intros v (x & s' & pre & Vv & _). exists s'. eapply visit_trans; eauto. } rewrite Us in E'. injection E' as <-. exact A.
  - destruct (dsource_beq (df_src y) DS_Builtin) eqn:B2; [apply internal_dsource_dec_bl in B2|apply dsource_neq in B2].
    + right; right. unfold findDefinition in F. apply tbind_value in F as ([v|] & Fv & F).
      * destruct (findVar_on _ _ _ _ Id E N Fv) as [On _]. unfold findVarDefinition in F.
        destruct (VlaModel.query s v) as [[|d'|d']|] eqn:Q; try discriminate; injection F as ->.
        { exfalso. apply B. eapply with_source; eauto. }
        pose proof H as H0. apply vla_start in H0 as (s1 & en & _ & _ & _ & _ & Er & _ & _ & _ & P & G).
        destruct (po_resuse _ _ _ _ _ _ P _ _ Q) as [Z|(y' & Y1 & Nw & I)]; [rewrite Er in Z; discriminate|].
        rewrite (defn_fun _ _ _ _ Y1 Y') in *.
        destruct (builtin_uses _ _ _ _ _ H Y' B2) as [Sn [Z|(x & U)]]; [elim (Z _ I)|].
        destruct (proj1 (U _) I) as (sc' & v' & Oc & Bd & Ei). exists x, v, v', sc'. split; [exact On|]. split; [exact Oc|]. split; [exact Ei|]. split; [exact Bd|].
        split; [now rewrite Sn|].
        destruct (uses_set primops root (df_uses y) (fun v => exists sc, occurs_at primops root sc v x /\ bound sc x (prelude primops)) C) as (vs' & E' & A).
        -- intros v0 (sc & [V _] & _). eauto.
        -- intros u. rewrite U. split; [intros (sc & v0 & O & B0 & E0)|intros (v0 & (sc & O & B0) & E0)]; eauto 8.
        -- rewrite Us in E'. injection E' as <-. exact A.
      * exfalso. destruct (findSelfDefinition s m n) as [d'|] eqn:Sd; [|discriminate]. injection F as ->.
        destruct (self_name _ _ _ _ _ _ _ H Id E N Sd Y') as (nd & S & O).
        destruct (builtin_uses _ _ _ _ _ H Y' B2) as [Z _]. congruence.
    + left. destruct (found_declared _ _ _ _ _ _ _ H Id E N F Y' B B2) as (sc & o & x & nd & D & S & Cu & U).
      exists sc, o, x, nd. split; auto. split; [now rewrite S|]. split; auto.
      destruct (uses_nodes _ _ _ _ _ _ C (proj1 D) U) as (vs' & E' & _ & A). rewrite Us in E'. injection E' as <-. exact A.
Qed.

(** ** quick fixes *)
Lemma lpos_le p q : lpos_ltb q p = false <-> lle p q.
Proof.
  unfold lpos_ltb, lle. rewrite Bool.orb_false_iff, Bool.andb_false_iff, !Z.ltb_ge, Z.eqb_neq. lia.
Qed.
Lemma overlap_meets p q : overlap p q = true <-> meets p q.
Proof. unfold overlap, meets. now rewrite Bool.andb_true_iff, !Bool.negb_true_iff, !lpos_le. Qed.
Lemma fixes_in src r ds a : In a (quickFixes src r ds) <->
  exists d f, In d ds /\ In f (d_fixes d) /\ meets r (toLSPRange src (d_range d)) /\ a = fixAction src (d_kind d) f.
Proof.
  induction ds as [|d ds IH]; cbn [quickFixes]; [split; [intros []|intros (d & f & [] & _)]|]. rewrite in_app_iff, IH. split.
  - intros [I|(d' & f & I & R)]; [|exists d', f; split; [now right|auto]].
    destruct (overlap r (toLSPRange src (d_range d))) eqn:O; [|destruct I]. apply in_map_iff in I as (f & <- & I).
    exists d, f. split; [now left|]. split; auto. split; auto. now apply overlap_meets.
  - intros (d' & f & [<-|I] & Fi & M & ->); [left|right; eauto 8]. apply overlap_meets in M. rewrite M. now apply in_map.
Qed.

(** ** settings *)
Lemma find_insert {A} x (v : A) l y : aget y (mapInsert x v l) = if bytes_eqb y x then Some v else aget y l.
Proof.
  assert (Q : forall a c, bytes_eqb a c = true <-> a = c) by apply VlaPost.bytes_eqb_eq.
  induction l as [|[z w] l IH]; cbn [mapInsert]; [cbn [aget]; reflexivity|].
  destruct (bytes_ltb x z); [reflexivity|]. destruct (bytes_eqb x z) eqn:E.
  - apply Q in E. subst z. cbn [aget]. destruct (bytes_eqb y x); reflexivity.
  - cbn [aget]. destruct (bytes_eqb y z) eqn:Ez; [|exact IH]. apply Q in Ez. subst z.
    destruct (bytes_eqb y x) eqn:Ey; [|reflexivity]. apply Q in Ey. subst y. rewrite (proj2 (Q x x) eq_refl) in E. discriminate.
Qed.

(** ** the expression at a place *)
Lemma nonmisc src root ds n : parse src = Ok (Some root, ds) -> kind_of n <> NK_Misc -> forall p q, node_of root p -> ~ let_keyword p q n.
Proof.
  intros HP K p q N E. pose proof (doc_typed _ _ _ HP _ (node_within _ _ N)) as T.
  destruct p; try contradiction; cbn [let_keyword] in E;
    match type of E with match ?a with _ => _ end => destruct a as [a|]; [|contradiction] end; destruct E as [_ E]; subst n;
    cbn in T; unfold is_kind in T; intuition congruence.
Qed.
Lemma expr_here src root ds m n e : parse src = Ok (Some root, ds) -> parents root = Ok m -> kind_of n <> NK_Misc ->
  nearest_expr root n e -> node_of root n /\ upExpr m n = Ok (Some e).
Proof.
  intros HP HM K (l & C & F). pose proof (chain_node _ _ _ C) as N. split; auto.
  destruct (up_ok root m isExpr n (parse_identified _ _ _ HP) HM N) as (l' & C' & U).
  rewrite (parse_one_way _ _ _ _ _ _ HP (nonmisc _ _ _ _ HP K) C C') in F. unfold upExpr. now rewrite U, F.
Qed.
Lemma select_here src root ds m n k : parse src = Ok (Some root, ds) -> parents root = Ok m -> kind_of n <> NK_Misc ->
  node_of root n -> exists r, upTo m n k = Ok r /\ forall q, r = Some q <-> nearest root n k q.
Proof.
  intros HP HM K N. destruct (up_ok root m (fun k' => nodekind_beq k' k) n (parse_identified _ _ _ HP) HM N) as (l & C & U).
  eexists. split; [exact U|]. intros q. split; [intros E; exists l; auto|].
  intros (l' & C' & F). now rewrite (parse_one_way _ _ _ _ _ _ HP (nonmisc _ _ _ _ HP K) C C').
Qed.
Lemma no_inherit src root ds m n : parse src = Ok (Some root, ds) -> parents root = Ok m -> node_of root n -> not_inherited root n ->
  findInheritVar m n = value None.
Proof.
  intros HP HM N H. unfold findInheritVar. pose proof (parse_identified _ _ _ HP) as Id.
  destruct (up_ok root m (fun k' => nodekind_beq k' NK_Inherit) n Id HM N) as (l & C & U).
  assert (U' : upTo m n NK_Inherit = Ok (find (fun p => nodekind_beq (kind_of p) NK_Inherit) l)) by exact U. rewrite U'. cbn [bind].
  destruct (find _ l) as [q|] eqn:F; [|reflexivity]. destruct (H q) as (i & r & names & e & ->); [exists l; auto|].
  destruct (up_ok root m (fun k' => nodekind_beq k' NK_AttrName) n Id HM N) as (l2 & C2 & U2).
  assert (U3 : upTo m n NK_AttrName = Ok (find (fun p => nodekind_beq (kind_of p) NK_AttrName) l2)) by exact U2. rewrite U3. cbn [bind].
  destruct (find _ l2); reflexivity.
Qed.

(** ** names in nixpkgs: what is thrown *)
Section Thrown.
Variables (src : bytes) (root : node) (ds : list diag) (primops : list (bytes * bool)) (s : vst) (m : pmap).
Hypothesis HP : parse src = Ok (Some root, ds).
Hypothesis HV : vla primops root = Ok s.
Hypothesis HM : parents root = Ok m.
Definition quiet (a : may (list bytes)) : Prop := forall t, a = Ok (inl t) -> isIdiomSelector t = true.
Lemma path_quiet names : forall base, quiet (pathSelector names base).
Proof.
  induction names as [|n names IH]; intros base t; cbn [pathSelector]; [discriminate|].
  destruct (staticName n); [apply IH|]. now intros [= <-].
Qed.
Lemma bind_quiet a k : quiet a -> (forall p, quiet (k p)) -> quiet (mbind a k).
Proof.
  intros A K t E. unfold mbind in E. destruct a as [[u|p]| |] eqn:Ea; try discriminate.
  - injection E as <-. now apply A.
  - now apply (K p).
Qed.
Lemma select_quiet f sc e : visit (prelude primops) root sc e -> (forall v x, occurs_at primops root sc v x -> quiet (f v)) -> quiet (selSelector f e).
Proof.
  intros V H. destruct (nodekind_beq (kind_of e) NK_ExprSelect) eqn:K.
  2:{ intros t E. destruct e; try discriminate K; injection E as <-; reflexivity. }
  apply internal_nodekind_dec_bl in K.
  assert (X : exists i r v d q df o, e = NSelect i r v d q df o) by (destruct e; try discriminate K; eauto 10).
  destruct X as (i & r & v & d & q & df & o & ->). cbn [selSelector].
  destruct (nodekind_beq (kind_of v) NK_ExprVar) eqn:Kv; [|intros t [= <-]; reflexivity]. apply internal_nodekind_dec_bl in Kv.
  apply bind_quiet.
  - apply (H v (varName v)). split; [|split; auto]. eapply visit_trans; [exact V|]. eapply visit_in; [|apply visit_here]. left. reflexivity.
  - intros p. destruct q; [apply path_quiet|]. intros t E. discriminate.
Qed.
Lemma var_quiet k : forall sc v x, occurs_at primops root sc v x -> quiet (mkVarSelector s m k v).
Proof.
  induction k as [|k IH]; intros sc v x O; [intros t E; discriminate|].
  destruct (query_res _ _ _ _ _ _ HV (parse_coherent _ _ _ primops HP) O) as (r & Q & R). cbn [mkVarSelector]. rewrite Q.
  assert (P : quiet (varSelector v)).
  { intros t E. unfold varSelector in E. destruct (bytes_eqb _ _); [discriminate|]. destruct (bytes_eqb _ _); [discriminate|]. now injection E as <-. }
  destruct r as [|d|d]; auto.
  destruct (sel_with_def _ _ _ _ _ _ HP HV HM _ _ _ _ O Q) as (_ & ws & w & y & kw & Ws & Y & Sy & Pk & (t & Vt & Wt) & (i & r & semi & we & e & ->)).
  rewrite Y, Sy, Pk. apply bind_quiet; [|intros p u E; discriminate]. unfold withSelector. destruct we as [we|]; [|intros u [= <-]; reflexivity].
  assert (Ve : visit (prelude primops) root t we).
  { eapply visit_trans; [exact Vt|]. eapply visit_in; [|apply visit_here]. simpl. now left. }
  destruct (nodekind_beq (kind_of we) NK_ExprVar) eqn:K1.
  - apply internal_nodekind_dec_bl in K1. apply (IH t we (varName we)). split; [exact Ve|split; auto].
  - destruct (nodekind_beq (kind_of we) NK_ExprSelect) eqn:K2; [|intros u [= <-]; reflexivity]. eapply select_quiet; eauto.
Qed.
Lemma sel_quiet k sc e : visit (prelude primops) root sc e -> quiet (mkSelector s m k e).
Proof. intros V. eapply select_quiet; [exact V|]. intros v x O. eapply var_quiet; eauto. Qed.
End Thrown.

(** ** places in nixpkgs *)
Lemma colon_split x : (colon_free x /\ splitColon x = (x, None)) \/
  exists file rest, x = file ++ b ":" ++ rest /\ colon_free file /\ splitColon x = (file, Some rest).
Proof.
  induction x as [|c x IH]; [left; split; [intros []|reflexivity]|]. cbn [splitColon]. destruct (Ascii.eqb_spec c ":") as [->|Nc].
  - right. exists [], x. split; [reflexivity|]. split; [intros []|reflexivity].
  - destruct IH as [[F ->]|(f & r & -> & F & ->)].
    + left. split; [intros [Z|Z]; [congruence|contradiction]|reflexivity].
    + right. exists (c :: f), r. split; [reflexivity|]. split; [intros [Z|Z]; [congruence|contradiction]|reflexivity].
Qed.
Lemma places_ok ask p : (exists l, defineNixpkgsSelector (Some ask) p = Ok (inr l) /\ nixpkgs_places ask p l) \/
  (defineNixpkgsSelector (Some ask) p = Ok (inl BadNumber) /\ bad_position ask p).
Proof.
  cbn [defineNixpkgsSelector]. destruct (ask p) as [i|] eqn:A; [|left; eexists; split; [reflexivity|now apply np_unknown]].
  destruct (pk_Position (ai_PackageDesc i)) as [pos|] eqn:P.
  - unfold parseLocation. destruct (colon_split pos) as [[F ->]|(f & r & E & F & ->)].
    + left. eexists. split; [reflexivity|]. eapply np_file; eauto.
    + destruct (stoi r) as [l|] eqn:S.
      * left. eexists. split; [reflexivity|]. apply (np_line ask p i f r l A); auto. now rewrite P, E.
      * right. split; [reflexivity|]. exists i, f, r. split; [exact A|]. split; [now rewrite P, E|]. now split.
  - left. destruct (vm_Location (ai_Meta i)) as [l|] eqn:L; eexists; (split; [reflexivity|]); [eapply np_value|eapply np_nowhere]; eauto.
Qed.

(** ** go to definition *)
Section Definitions.
Variables (src : bytes) (root : node) (ds : list diag) (primops : list (bytes * bool)) (s : vst) (m : pmap).
Hypothesis HP : parse src = Ok (Some root, ds).
Hypothesis HV : vla primops root = Ok s.
Hypothesis HM : parents root = Ok m.
Variable ask : list bytes -> option attrPathInfo.
Lemma rest_ok sc e a : right_ root primops sc e a -> exists r, mbind a (defineNixpkgsSelector (Some ask)) = Ok r /\
  elsewhere root primops ask sc e (match r with inr l => l | inl _ => [] end).
Proof.
  intros (r0 & -> & R). destruct r0 as [t|p]; cbn [mbind bind].
  - eexists. split; [reflexivity|]. right. split; auto. intros p M. apply R in M. discriminate.
  - pose proof (proj1 (R p) eq_refl) as M. destruct (places_ok ask p) as [(l & E & P)|[E B]]; unfold mbind; cbn [bind]; rewrite E; eexists; (split; [reflexivity|]); left; exists p; auto.
Qed.
Lemma defineVar_ok sc e x : occurs_at primops root sc e x -> exists l, defineVar s m (Some ask) e = Ok l /\
  ((exists who names t nd role rest, bound sc x (Binds who names :: t) /\ In (x, (nd, role)) names /\ l = InDocument (nrange nd) :: rest /\ elsewhere root primops ask sc e rest) \/
   (exists ws i r kw semi we body rest, unbound sc x /\ withs sc = ws ++ [NWith i r kw semi we body] /\ l = InDocument (nrange kw) :: rest /\ elsewhere root primops ask sc e rest) \/
   (exists xs t, bound sc x (Prelude xs :: t) /\ l = []) \/
   (unbound sc x /\ withs sc = [] /\ l = [])).
Proof.
  intros O. destruct (query_res _ _ _ _ _ _ HV (parse_coherent _ _ _ primops HP) O) as (r & Q & R).
  destruct (rest_ok sc e _ (right_var _ _ _ _ _ _ HP HV HM 1 _ _ _ O)) as (q & Eq & El).
  unfold defineVar, findVarDefinition. rewrite Q. destruct r as [|d|d].
  - exists []. split; [reflexivity|]. destruct R as [U W]. auto 10.
  - destruct (sel_with_def _ _ _ _ _ _ HP HV HM _ _ _ _ O Q) as (Ub & ws & w & y & kw & Ws & Y & Sy & Pk & _ & (i & r & semi & we & body & ->)).
    cbn [bind value]. unfold value. rewrite Y, Sy, Eq. cbn [bind]. eexists. split; [reflexivity|]. right. left. eauto 15.
  - destruct R as (l & t & B & y & Y & D). unfold defn in Y. cbn [bind value]. unfold value. rewrite Y. destruct l as [xs|who names|w].
    + destruct D as [Sy _]. rewrite Sy. exists []. split; auto. eauto 10.
    + destruct D as (nd & Sy & I). rewrite Sy, Eq. cbn [bind]. eexists. split; [reflexivity|]. left. eauto 15.
    + destruct D.
Qed.
Lemma defineSelect_ok sc e : visit (prelude primops) root sc e -> kind_of e = NK_ExprSelect ->
  (forall p, meant primops root sc e p -> ~ bad_position ask p) -> exists l, defineSelect s m (Some ask) e = Ok l /\
  ((exists p, meant primops root sc e p /\ nixpkgs_places ask p l) \/ ((forall p, ~ meant primops root sc e p) /\ l = [])).
Proof.
  intros V K G. destruct (right_sel _ _ _ _ _ _ HP HV HM 1 _ _ V K) as (r & E & R). pose proof (sel_quiet _ _ _ _ _ _ HP HV HM 3 _ _ V) as Qt.
  unfold defineSelect, mbind. rewrite E. destruct r as [t|p]; cbn [bind].
  - rewrite (Qt t E). exists []. split; auto. right. split; auto. intros p M. apply R in M. discriminate.
  - pose proof (proj1 (R p) eq_refl) as M. destruct (places_ok ask p) as [(l & E2 & P)|[E2 B]]; [|elim (G p M B)].
    rewrite E2. cbn [bind]. exists l. split; auto. left. eauto.
Qed.
End Definitions.

(** ** settings *)
Lemma insert_keys {A} x (v : A) l y : In y (map fst (mapInsert x v l)) <-> y = x \/ In y (map fst l).
Proof.
  induction l as [|[z w] l IH]; cbn [mapInsert]; [simpl; intuition|]. destruct (bytes_ltb x z); [simpl; intuition|].
  destruct (bytes_eqb x z) eqn:E; [apply VlaPost.bytes_eqb_eq in E; subst; simpl; intuition|]. simpl. rewrite IH. intuition.
Qed.
Lemma insert_nodup {A} x (v : A) l : NoDup (map fst l) -> ~ In x (map fst l) -> NoDup (map fst (mapInsert x v l)).
Proof.
  induction l as [|[z w] l IH]; cbn [mapInsert]; intros N I; [simpl; constructor; auto|]. destruct (bytes_ltb x z); [simpl; constructor; auto|].
  destruct (bytes_eqb x z) eqn:E; [apply VlaPost.bytes_eqb_eq in E; subst; elim I; now left|]. simpl in *. inversion N; subst. constructor.
  - rewrite insert_keys. intros [->|Z]; [|contradiction]. apply I. now left.
  - apply IH; auto.
Qed.
Lemma options_read l : NoDup (map fst l) -> exists o,
  optionsOfFields (map (fun p => (fst p, JObject [(b "expr", JString (snd p))])) l) = Some o /\
  (forall x, aget x o = aget x l) /\ NoDup (map fst o) /\ (forall x, In x (map fst o) <-> In x (map fst l)).
Proof.
  induction l as [|[x e] l IH]; intros N; [exists []; repeat split; auto; constructor|].
  simpl in N. inversion N as [|? ? I N']; subst. destruct (IH N') as (o & E & G & No & K).
  exists (mapInsert x e o). cbn [map fst snd].
  cbn [optionsOfFields]. rewrite E.
  replace (fieldFrom "expr" fromString [] (JObject [(b "expr", JString e)])) with (Some e) by reflexivity. split; [reflexivity|]. split; [|split].
  - intros y. rewrite find_insert. cbn [aget]. destruct (bytes_eqb y x); auto.
  - apply insert_nodup; auto. now rewrite K.
  - intros y. rewrite insert_keys, K. simpl. intuition.
Qed.
Lemma aget_key {A} x (l : list (bytes * A)) v : aget x l = Some v -> In x (map fst l).
Proof.
  induction l as [|[y w] l IH]; cbn [aget]; [discriminate|]. destruct (bytes_eqb x y) eqn:E; [apply VlaPost.bytes_eqb_eq in E; subst; now left|].
  intros H. right. auto.
Qed.
Lemma workers_ok (o : list (bytes * bytes)) : NoDup (map fst o) -> forall w x,
  aget x (fold_left (fun w p => mapInsert (fst p) (snd p) w) o w) = match aget x o with Some e => Some e | None => aget x w end.
Proof.
  induction o as [|[y e] o IH]; intros N w x; [reflexivity|]. simpl in N. inversion N as [|? ? I N']; subst. cbn [fold_left fst snd].
  rewrite IH by auto. cbn [aget]. rewrite find_insert. destruct (bytes_eqb x y) eqn:E; [|reflexivity].
  apply VlaPost.bytes_eqb_eq in E. subst. destruct (aget y o) as [z|] eqn:Z; [|reflexivity]. elim I. eapply aget_key; eauto.
Qed.
Lemma vector_read l : fromVector fromString (JArray (map JString l)) = Some l.
Proof. cbn [fromVector]. induction l as [|x l IH]; [reflexivity|]. cbn. cbn in IH. now rewrite IH. Qed.
Lemma settings_read a o n d : NoDup (map fst (given o [])) -> exists o',
  configFromJSON (settings a o n d) = Some (Config (given a [b "nixfmt"]) o' (given n []) (given d [])) /\
  (forall x, aget x o' = aget x (given o [])) /\ NoDup (map fst o').
Proof.
  intros N. destruct (options_read _ N) as (o' & E & G & N' & _). exists o'. split; [|auto].
  unfold configFromJSON, settings. cbn [getAsObject].
  set (fa := field "formatting" _). set (fo := field "options" _). set (fn := field "nixpkgs" _). set (fd := field "diagnostic" _).
  assert (Fa : omapOptional "formatting" formattingFromJSON (cf_command defaultConfig) (fa ++ fo ++ fn ++ fd) = Some (given a [b "nixfmt"])).
  { subst fa fo fn fd. destruct a as [l|]; [|destruct o, n, d; reflexivity].
    change (omapOptional _ _ _ _) with (fieldFrom "command" (fromVector fromString) [b "nixfmt"] (JObject [(b "command", JArray (map JString l))])).
    change (fieldFrom _ _ _ _) with (fromVector fromString (JArray (map JString l))). apply vector_read. }
  assert (Fo : omapOptional "options" optionsFrom [] (fa ++ fo ++ fn ++ fd) = Some o').
  { subst fa fo fn fd. destruct o as [l|].
    - replace (omapOptional _ _ _ _) with (optionsFrom (JObject (map (fun p => (fst p, JObject [(b "expr", JString (snd p))])) l))) by (destruct a; reflexivity).
      exact E.
    - cbn in E. injection E as <-. destruct a, n, d; reflexivity. }
  assert (Fn : omapOptional "nixpkgs" (fieldFrom "expr" fromString []) [] (fa ++ fo ++ fn ++ fd) = Some (given n [])).
  { subst fa fo fn fd. destruct n; [|destruct a, o, d; reflexivity]. destruct a, o; reflexivity. }
  assert (Fd : omapOptional "diagnostic" (fieldFrom "suppress" (fromVector fromString) []) [] (fa ++ fo ++ fn ++ fd) = Some (given d [])).
  { subst fa fo fn fd. destruct d as [l|]; [|destruct a, o, n; reflexivity].
    replace (omapOptional _ _ _ _) with (fromVector fromString (JArray (map JString l))) by (destruct a, o, n; reflexivity). apply vector_read. }
  now rewrite Fa, Fo, Fn, Fd.
Qed.

(** ** texts *)
Lemma shows_l t u p : shows t p -> shows (u ++ t) p.
Proof. intros (a & c & ->). exists (u ++ a), c. now rewrite <- app_assoc. Qed.
Lemma shows_r t u p : shows t p -> shows (t ++ u) p.
Proof. intros (a & c & ->). exists a, (c ++ u). now rewrite <- !app_assoc. Qed.
Lemma shows_self p : shows p p.
Proof. exists [], []. now rewrite app_nil_r. Qed.
Lemma args_shown l x : In x l -> shows (argList l) (b "`" ++ x ++ b "`").
Proof.
  induction l as [|y l IH]; [intros []|]. intros [->|I].
  - destruct l as [|z l]; [apply shows_self|]. exists [], (b ", " ++ argList (z :: l)). cbn [argList app].
    change (b "`, ") with (b "`" ++ b ", "). now rewrite <- !app_assoc.
  - destruct l as [|z l]; [destruct I|]. change (argList (y :: z :: l)) with (b "`" ++ y ++ b "`, " ++ argList (z :: l)).
    do 3 apply shows_l. auto.
Qed.
Lemma package_shown p :
  (forall x, pk_Name p = Some x -> shows (packageMarkdown p) (b "`" ++ x ++ b "`")) /\
  (forall x, pk_Homepage p = Some x -> shows (packageMarkdown p) (b "[homepage](" ++ x ++ b ")")) /\
  (forall x, pk_Description p = Some x -> shows (packageMarkdown p) x) /\
  (forall x y, pk_Description p = Some x -> pk_LongDescription p = Some y -> shows (packageMarkdown p) y).
Proof.
  unfold packageMarkdown. split; [intros x E|split; [intros x E|split; [intros x E|intros x y E E2]]].
  - rewrite E. apply shows_r. exists [], LF. cbn [when_ app]. now rewrite <- !app_assoc.
  - rewrite E. apply shows_l, shows_r. exists [], LF. cbn [when_ app]. now rewrite <- !app_assoc.
  - rewrite E. cbn [when_]. do 3 apply shows_l. apply shows_r. unfold section_. apply shows_r, shows_self.
  - rewrite E, E2. cbn [when_]. do 6 apply shows_l. unfold section_. apply shows_r, shows_self.
Qed.
Lemma value_shown i v : ai_ValueDesc i = Some v ->
  shows (infoMarkdown i) (vd_Doc v) /\
  (vd_Arity v <> 0%Z -> shows (infoMarkdown i) (b "**Arity:** " ++ intText (vd_Arity v))) /\
  (forall x, In x (vd_Args v) -> shows (infoMarkdown i) (b "`" ++ x ++ b "`")).
Proof.
  intros E. unfold infoMarkdown. rewrite E. cbn [when_]. split; [|split].
  - do 2 apply shows_l. apply shows_r. destruct (vd_Doc v); [exists [], []; reflexivity|]. unfold section_. apply shows_r, shows_self.
  - intros N. do 3 apply shows_l. apply shows_r. destruct (Z.eqb_spec (vd_Arity v) 0) as [Z|_]; [contradiction|].
    exists [], LF. cbn [app]. now rewrite <- !app_assoc.
  - intros x I. do 4 apply shows_l. destruct (vd_Args v) as [|a l] eqn:A; [destruct I|]. apply shows_l, shows_r. now apply args_shown.
Qed.

(** ** hover and pages *)
Section Hover.
Variables (src : bytes) (root : node) (ds : list diag) (primops : list (bytes * bool)) (s : vst) (m : pmap).
Hypothesis HP : parse src = Ok (Some root, ds).
Hypothesis HV : vla primops root = Ok s.
Hypothesis HM : parents root = Ok m.
Lemma hover_right ask sc e a : right_ root primops sc e a -> exists t, selectorHover ask a = Ok t /\
  forall text, t = Some text <-> exists p i, meant primops root sc e p /\ ask p = Some i /\ text = infoMarkdown i /\ text <> [].
Proof.
  intros (r & -> & R). unfold selectorHover. cbn [bind]. eexists. split; [reflexivity|]. intros text. destruct r as [t|p].
  - split; [discriminate|]. intros (p & i & M & _). apply R in M. discriminate.
  - pose proof (proj1 (R p) eq_refl) as M. split.
    + intros E. destruct (ask p) as [i|] eqn:A; [|discriminate]. exists p, i. destruct (infoMarkdown i) eqn:I; [discriminate|]. injection E as <-.
      split; auto. split; auto. split; auto. discriminate.
    + intros (p' & i & M' & A & E & Ne). apply R in M'. injection M' as <-. rewrite A. subst text. destruct (infoMarkdown i); [congruence|reflexivity].
Qed.
Lemma hover_ok ask workers sc n e : nearest_expr root n e -> kind_of n <> NK_Misc -> visit (prelude primops) root sc e ->
  (kind_of e = NK_ExprVar \/ kind_of e = NK_ExprSelect) ->
  exists r, onHover s m (Some ask) workers n = Ok r /\
  forall text q, r = Some (text, q) <-> q = e /\ exists p i, meant primops root sc e p /\ ask p = Some i /\ text = infoMarkdown i /\ text <> [].
Proof.
  intros Ne K V Ke. destruct (expr_here _ _ _ _ _ _ HP HM K Ne) as [N U]. unfold onHover. rewrite U. cbn [bind].
  assert (X : exists t, match kind_of e with
      | NK_ExprVar => selectorHover ask (mkVarSelector s m 3 e) | _ => selectorHover ask (mkSelector s m 3 e) end = Ok t /\
      forall text, t = Some text <-> exists p i, meant primops root sc e p /\ ask p = Some i /\ text = infoMarkdown i /\ text <> []).
  { destruct Ke as [Ke|Ke]; rewrite Ke; apply hover_right.
    - eapply (right_var _ _ _ _ _ _ HP HV HM 1). split; [exact V|split; auto].
    - now apply (right_sel _ _ _ _ _ _ HP HV HM 1). }
  destruct X as (t & E & T). exists (option_map (fun t => (t, e)) t). split.
  - destruct Ke as [Ke|Ke]; rewrite Ke in *; rewrite E; reflexivity.
  - intros text q. destruct t as [t|]; simpl.
    + split; [intros [= <- <-]; split; [auto|now apply T]|]. intros [-> H]. apply T in H. now injection H as ->.
    + split; [discriminate|]. intros [_ H]. apply T in H. discriminate.
Qed.
Lemma noogle_ok n : node_of root n -> kind_of n <> NK_Misc -> exists r, noogleDoc m n = Ok r /\
  forall t u, r = Some (t, u) <-> exists i q v d p df o xs, nearest root n NK_ExprSelect (NSelect i q v d (Some p) df o) /\
    is_var v (b "lib") /\ reads_names (path_names p) (xs ++ [t]) /\ u = noogle_page (xs ++ [t]).
Proof.
  intros N K. destruct (select_here _ _ _ _ _ NK_ExprSelect HP HM K N) as (up & U & A). unfold noogleDoc. rewrite U. cbn [bind]. change BindModel.path_names with SemaModel.path_names.
  eexists. split; [reflexivity|]. intros t u.
  assert (Pg : forall l, buildNoogleUrl (b "lib" :: l) = noogle_page l).
  { intros l. unfold buildNoogleUrl, noogle_page. change (b "https://noogle.dev/f/lib") with (b "https://noogle.dev/f" ++ b "/lib").
    rewrite <- app_assoc. f_equal. rewrite flat_map_concat_map. reflexivity. }
  split.
  - intros E. destruct up as [e|]; [|discriminate]. pose proof (proj1 (A e) eq_refl) as Ne.
    assert (Ke : kind_of e = NK_ExprSelect) by (destruct Ne as (l & _ & F); now apply find_kind in F).
    assert (X : exists i r v d q df o, e = NSelect i r v d q df o) by (destruct e; try discriminate Ke; eauto 10).
    destruct X as (i & r & v & d & q & df & o & ->). destruct q as [q|]; [|discriminate].
    destruct (nodekind_beq (kind_of v) NK_ExprVar) eqn:Kv; [|discriminate]. destruct (bytes_eqb (varName v) (b "lib")) eqn:L; [|discriminate].
    cbn [andb] in E. apply internal_nodekind_dec_bl in Kv. apply VlaPost.bytes_eqb_eq in L.
    destruct (path_names q) as [|a names] eqn:Pn; [discriminate|]. rewrite <- Pn in E. destruct (staticNames (path_names q)) as [l|] eqn:S; [|discriminate].
    apply static_reads in S. assert (Nl : l <> []) by (intros ->; rewrite Pn in S; inversion S).
    destruct (exists_last Nl) as (xs & z & ->). rewrite last_last, Pg in E. injection E as <- <-.
    exists i, r, v, d, q, df, o, xs. split; auto. split; [split; auto|]. split; auto.
  - intros (i & q & v & d & p & df & o & xs & Ne & [Kv L] & S & ->). apply A in Ne. subst up. rewrite Kv, L.
    change (nodekind_beq NK_ExprVar NK_ExprVar && bytes_eqb (b "lib") (b "lib")) with true. cbv iota.
    pose proof (proj2 (static_reads _ _) S) as S'. destruct (path_names p) as [|a names] eqn:Pn; [exfalso; remember (xs ++ [t]) as z; inversion S; subst; destruct xs; discriminate|].
    rewrite <- Pn in *. rewrite S', last_last, Pg. reflexivity.
Qed.
End Hover.
